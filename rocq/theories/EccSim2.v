(** * EccSim2: the simulator on circuits, with all outcomes of its resets and measurements, and its soundness *)
From Coq Require Import NArith ZArith Ring.
From Verif Require Export EccSim.
Local Open Scope amp_scope.

(** the template placed in a circuit *)
Definition ren (rho : nat -> nat) (off : nat) (o : op) : op :=
  match o with
  | Gate g ctl t => Gate g (map (fun p => (rho (fst p), snd p)) ctl) (rho t)
  | Swap a b => Swap (rho a) (rho b)
  | Reset q => Reset (rho q)
  | Meas q c => Meas (rho q) (off + c)%nat
  | If g t lo w v => If g (rho t) (off + lo)%nat w v
  end.

(** ** Circuits are linear; classical bits and outcomes do not depend on the state *)
Lemma step_cr c f o : creg (step (mkConf (creg c) (outs c) f) o) = creg (step c o). Proof. destruct o; reflexivity. Qed.
Lemma step_outs c f o : outs (step (mkConf (creg c) (outs c) f) o) = outs (step c o). Proof. destruct o; reflexivity. Qed.
Lemma u2_lin m q a b f g x : u2 m q (plus (scale a f) (scale b g)) x = plus (scale a (u2 m q f)) (scale b (u2 m q g)) x.
Proof. destruct m as [[[m00 m01] m10] m11]. unfold u2, plus, scale. destruct (bit x q); ring. Qed.
Lemma u2_ext m q f g : f == g -> u2 m q f == u2 m q g.
Proof. intros E x. destruct m as [[[m00 m01] m10] m11]. unfold u2. now rewrite !E. Qed.
Lemma gate_lin t ctl q a b f g : gate t ctl q (plus (scale a f) (scale b g)) == plus (scale a (gate t ctl q f)) (scale b (gate t ctl q g)).
Proof. intros x. unfold gate. destruct (active ctl x) eqn:E; [rewrite u2_lin|]; unfold plus, scale; rewrite ?E; ring. Qed.
Lemma gate_ext t ctl q f g : f == g -> gate t ctl q f == gate t ctl q g.
Proof. intros E x. unfold gate. rewrite E. destruct active; [|reflexivity]. now apply u2_ext. Qed.
Lemma step_ext cr os f g o : f == g -> st (step (mkConf cr os f) o) == st (step (mkConf cr os g) o).
Proof.
  intros E. destruct o; cbn [step st creg outs].
  - now apply gate_ext.
  - intros x. apply E.
  - intros x. unfold resetTo. now rewrite E.
  - intros x. unfold project. now rewrite E.
  - destruct (N.eqb _ _); [now apply gate_ext|exact E].
Qed.
Lemma step_lin cr os a b f g o :
  st (step (mkConf cr os (plus (scale a f) (scale b g))) o) == plus (scale a (st (step (mkConf cr os f) o))) (scale b (st (step (mkConf cr os g) o))).
Proof.
  destruct o; cbn [step st creg outs].
  - apply gate_lin.
  - intros x. reflexivity.
  - intros x. unfold resetTo, plus, scale. destruct (bit x q); [rewrite !amul_0_r|]; ring.
  - intros x. unfold project, plus, scale. destruct (Bool.eqb _ _); [|rewrite !amul_0_r]; ring.
  - destruct (N.eqb _ _); [apply gate_lin|intros x; reflexivity].
Qed.
Lemma run_cr os : forall c f, creg (run os (mkConf (creg c) (outs c) f)) = creg (run os c) /\ outs (run os (mkConf (creg c) (outs c) f)) = outs (run os c).
Proof.
  induction os as [|o os IHo]; intros c f; [auto|]. unfold run in *. cbn [fold_left].
  pose proof (step_cr c f o) as E1. pose proof (step_outs c f o) as E2. specialize (IHo (step c o) (st (step (mkConf (creg c) (outs c) f) o))).
  rewrite <- E1, <- E2 in IHo at 1. destruct IHo as [I1 I2].
  destruct (step (mkConf (creg c) (outs c) f) o) as [cr0 os0 f1] eqn:E. cbn [creg outs st] in *. subst. split; [exact I1|].
  rewrite <- I2. reflexivity.
Qed.
Lemma run_ext os : forall cr o f g, f == g -> st (run os (mkConf cr o f)) == st (run os (mkConf cr o g)).
Proof.
  induction os as [|p os IHo]; intros cr o f g E; [exact E|]. unfold run in *. cbn [fold_left].
  pose proof (step_ext cr o f g p E) as Es. pose proof (step_cr (mkConf cr o g) f p) as E1. pose proof (step_outs (mkConf cr o g) f p) as E2. cbn [creg outs] in E1, E2.
  destruct (step (mkConf cr o f) p) as [cr1 o1 f1], (step (mkConf cr o g) p) as [cr2 o2 g2]. cbn [creg outs st] in *. subst. now apply IHo.
Qed.
Lemma run_lin os : forall cr o a b f g,
  st (run os (mkConf cr o (plus (scale a f) (scale b g)))) == plus (scale a (st (run os (mkConf cr o f)))) (scale b (st (run os (mkConf cr o g)))).
Proof.
  induction os as [|p os IHo]; intros cr o a b f g; [intros x; reflexivity|]. unfold run in *. cbn [fold_left].
  pose proof (step_lin cr o a b f g p) as Es. pose proof (step_cr (mkConf cr o g) f p) as E1. pose proof (step_outs (mkConf cr o g) f p) as E2.
  pose proof (step_cr (mkConf cr o g) (plus (scale a f) (scale b g)) p) as E3. pose proof (step_outs (mkConf cr o g) (plus (scale a f) (scale b g)) p) as E4. cbn [creg outs] in E1, E2, E3, E4.
  destruct (step (mkConf cr o f) p) as [cr1 o1 f1], (step (mkConf cr o g) p) as [cr2 o2 g2], (step (mkConf cr o (plus (scale a f) (scale b g))) p) as [cr3 o3 h]. cbn [creg outs st] in *.
  subst. intros x. rewrite <- IHo. now apply (run_ext os).
Qed.
Lemma run_scale os cr o a f : st (run os (mkConf cr o (scale a f))) == scale a (st (run os (mkConf cr o f))).
Proof.
  intros x. rewrite (run_ext os cr o (scale a f) (plus (scale a f) (scale azero f))), run_lin.
  - unfold plus, scale. rewrite amul_0_l. ring.
  - intros y. unfold plus, scale. rewrite amul_0_l. ring.
Qed.
Lemma run_zero os cr o f : f == zero -> st (run os (mkConf cr o f)) == zero.
Proof.
  intros E x. rewrite (run_ext os cr o f (scale azero f)).
  - rewrite run_scale. unfold scale, zero. apply amul_0_l.
  - intros y. rewrite E. unfold scale, zero. symmetry. apply amul_0_l.
Qed.
Lemma run_app a b c : run (a ++ b) c = run b (run a c). Proof. apply fold_left_app. Qed.

(** ** The simulator *)
Record sst := mkS { kc : N; km : N; sk : nat; ss : sum }.
Definition uSum (g : gt) (t : nat) (s : sum) : sum :=
  let '(a, b, c, d) := pexp g in sScale a s ++ sScale b (sX t s) ++ sScale c (sX t (sZ t s)) ++ sScale d (sZ t s).
Definition sGate (w : nat) (g : gt) (ctl : list (nat * bool)) (t : nat) (k : nat) (s : sum) : option (nat * sum) :=
  if (t <? w) && forallb (fun p => (fst p <? w) && negb (fst p =? t)) ctl then
    match ctl, g with
    | [], _ => Some ((k + 1)%nat, uSum g t s)
    | _, GH => None
    | _, _ => Some ((k + S (length ctl))%nat, sScale (two (S (length ctl))) s ++ fold_right (fun c s => sPj s c) (uSum g t s ++ sScale (aopp (aone + aone)) s) ctl)
    end
  else None.
Definition known (m : N) (lo wd : nat) : bool := forallb (bit m) (seq lo wd).
Definition sop (w : nat) (o : op) (b : bool) (s : sst) : option sst :=
  let wrap r := match r with Some (k, x) => Some (mkS (kc s) (km s) k x) | None => None end in
  match o with
  | Gate g ctl t => wrap (sGate w g ctl t (sk s) (ss s))
  | Swap p q =>
      if (p <? w) && (q <? w) && negb (p =? q) then
        wrap (Some ((sk s + 1)%nat, ss s ++ sX p (sX q (ss s)) ++ sZ p (sZ q (ss s)) ++ sScale (aopp aone) (sX p (sZ p (sX q (sZ q (ss s)))))))
      else None
  | Reset q => if q <? w then wrap (Some ((sk s + 1)%nat, if b then sX q (sPj (ss s) (q, true)) else sPj (ss s) (q, false))) else None
  | Meas q c => if q <? w then Some (mkS (upd (kc s) c b) (upd (km s) c true) (sk s + 1)%nat (sPj (ss s) (q, b))) else None
  | If g t lo wd v => if known (km s) lo wd then if N.eqb (value (kc s) lo wd) (N.of_nat v) then wrap (sGate w g [] t (sk s) (ss s)) else Some s else None
  end.
Definition isRand (o : op) : bool := match o with Reset _ | Meas _ _ => true | _ => false end.
Definition normS (gs : list gen) (s : sst) : sst := let '(k, x) := norm gs (sk s) (ss s) in mkS (kc s) (km s) k x.
Section Chk.
Variable w : nat.
Variable gs : list gen.
Variable P : list bool -> sst -> bool.
Fixpoint chk (os : list op) (acc : list bool) (s : sst) : bool :=
  match ss s with
  | [] => true
  | _ => match os with
         | [] => P (rev acc) s
         | o :: os' =>
             let go b acc' := match sop w o b s with Some s' => chk os' acc' (normS gs s') | None => false end in
             if isRand o then go false (false :: acc) && go true (true :: acc) else go false acc
         end
  end.
End Chk.
(** the outcomes a circuit takes from the record *)
Fixpoint taken (os : list op) (rec : list bool) : list bool :=
  match os with [] => [] | o :: os' => if isRand o then hd false rec :: taken os' (tl rec) else taken os' rec end.

Section Sound.
Variable w : nat.
Variable rho : nat -> nat.
Hypothesis inj : forall i j, i < w -> j < w -> rho i = rho j -> i = j.
Variable off : nat.
Variable f0 : state.
Variable gs : list gen.
Hypothesis Hgs : Forall (fixes w rho f0) gs.
Notation den := (den w rho f0).
Notation repr := (repr w rho f0).
Definition rel (s : sst) (c : conf) : Prop :=
  repr (sk s, ss s) (st c) /\ forall j, bit (km s) j = true -> bit (creg c) (off + j)%nat = bit (kc s) j.

Lemma uSum_ok g t k s f x : t < w -> repr (k, s) f -> den (uSum g t s) x = two k * ((aone + aone) * u2 (mat g) (rho t) f x).
Proof.
  intros Ht Hr. assert (Hd : forall y, den s y = two k * f y) by (intros y; symmetry; apply Hr). rewrite gate_u2. unfold uSum.
  destruct (pexp g) as [[[a b] c] d]. rewrite !den_app, !den_scale. rewrite !den_X by auto. unfold Xop. rewrite !den_Z by auto. unfold Zop.
  rewrite !Hd. ring.
Qed.
Lemma den_pjs ctl s x : Forall (fun p : nat * bool => fst p < w) ctl ->
  den (fold_right (fun c s => sPj s c) s ctl) x = pjs (map (fun p => (rho (fst p), snd p)) ctl) (den s) x.
Proof.
  intros Hc. revert x. induction Hc as [|c ctl Hc _ IHc]; intros x; [reflexivity|]. cbn [fold_right map]. rewrite den_Pj by auto.
  unfold pjs in *. cbn [fold_right]. unfold pj, Zop in *. cbn [fst snd] in *. now rewrite !IHc.
Qed.
Lemma sGate_ok g ctl t k s f r : sGate w g ctl t k s = Some r -> repr (k, s) f ->
  repr r (gate g (map (fun p => (rho (fst p), snd p)) ctl) (rho t) f).
Proof.
  unfold sGate. destruct ((t <? w) && _) eqn:E; [|discriminate]. apply andb_true_iff in E. destruct E as [Et Ec]. apply Nat.ltb_lt in Et.
  intros Hs Hr. assert (Hd : forall y, den s y = two k * f y) by (intros y; symmetry; apply Hr).
  assert (Hc : Forall (fun p : nat * bool => fst p < w) ctl).
  { rewrite forallb_forall in Ec. apply Forall_forall. intros p Hp. apply Ec in Hp. apply andb_true_iff in Hp. now apply Nat.ltb_lt. }
  destruct ctl as [|c ctl].
  - injection Hs as <-. intros x. cbn [fst snd map]. rewrite (uSum_ok g t k s f x Et Hr). unfold gate. cbn [active forallb]. rewrite Nat.add_1_r, two_S. ring.
  - assert (Hu : unit_of g = aone) by (destruct g; try reflexivity; discriminate Hs).
    assert (Hr' : r = ((k + S (length (c :: ctl)))%nat, sScale (two (S (length (c :: ctl)))) s ++ fold_right (fun c s => sPj s c) (uSum g t s ++ sScale (aopp (aone + aone)) s) (c :: ctl))).
    { destruct g; try discriminate Hs; injection Hs as <-; reflexivity. }
    rewrite Hr'. clear Hs Hr'. remember (c :: ctl) as cs. intros x. cbn [fst snd]. rewrite two_add.
    rewrite den_app, den_scale, den_pjs by auto. rewrite pjs_form, Hd, den_app, den_scale, Hd, (uSum_ok g t k s f x Et Hr).
    pose proof (gate_ctl g (map (fun p => (rho (fst p), snd p)) cs) (rho t) f x Hu) as G. rewrite map_length in *.
    transitivity (two k * (two (S (length cs)) * gate g (map (fun p => (rho (fst p), snd p)) cs) (rho t) f x)); [ring|]. rewrite G, pjs_form, map_length.
    destruct active; ring.
Qed.
Lemma value_ok s c lo wd : rel s c -> known (km s) lo wd = true -> value (creg c) (off + lo)%nat wd = value (kc s) lo wd.
Proof.
  intros [_ Hk] Hn. unfold known in Hn. rewrite forallb_forall in Hn. unfold value. apply N.bits_inj. intros n.
  destruct (N.lt_ge_cases n (N.of_nat wd)) as [Hl|Hl]; [rewrite !N.mod_pow2_bits_low by auto|now rewrite !N.mod_pow2_bits_high by auto].
  rewrite !N.shiftr_spec by apply N.le_0_l. specialize (Hk (lo + N.to_nat n)%nat). unfold bit in Hk.
  replace (n + N.of_nat (off + lo))%N with (N.of_nat (off + (lo + N.to_nat n))) by lia. replace (n + N.of_nat lo)%N with (N.of_nat (lo + N.to_nat n)) by lia.
  apply Hk. apply Hn. apply in_seq. lia.
Qed.
Lemma sop_ok o b s s' c : sop w o b s = Some s' -> rel s c -> (isRand o = true -> hd false (outs c) = b) -> rel s' (step c (ren rho off o)).
Proof.
  intros Hs Hrel Hb. pose proof Hrel as Hrel0. destruct Hrel as [Hr Hk]. destruct c as [cr oo f]. cbn [st creg outs] in *.
  assert (Hd : forall y, den (ss s) y = two (sk s) * f y) by (intros y; symmetry; apply Hr).
  destruct o; cbn [sop ren step st creg outs isRand] in *.
  - destruct (sGate w g ctl t (sk s) (ss s)) as [[k x]|] eqn:E; [|discriminate]. injection Hs as <-. split; [|exact Hk]. cbn [sk ss st].
    exact (sGate_ok _ _ _ _ _ _ _ E Hr).
  - destruct ((a <? w) && (b0 <? w) && negb (a =? b0)) eqn:E; [|discriminate]. injection Hs as <-. split; [|exact Hk]. cbn [sk ss st].
    rewrite !andb_true_iff, !Nat.ltb_lt, negb_true_iff, Nat.eqb_neq in E. destruct E as [[Ha Hb0] Hab].
    assert (Hn : rho a <> rho b0) by (intros E; apply Hab, inj; auto).
    intros x. cbn [fst snd]. rewrite Nat.add_1_r, two_S, !den_app, den_scale.
    repeat first [rewrite !den_X by auto; unfold Xop | rewrite !den_Z by auto; unfold Zop]. rewrite !Hd.
    assert (E1 : upd (upd x (rho a) (bit x (rho b0))) (rho b0) (bit x (rho a)) = if xorb (bit x (rho a)) (bit x (rho b0)) then flipb (flipb x (rho a)) (rho b0) else x).
    { apply bit_ext. intros p. rewrite !bit_upd. destruct (xorb _ _) eqn:Ex; rewrite ?bit_flipb.
      - destruct (Nat.eqb_spec (rho b0) p) as [E1|E1], (Nat.eqb_spec (rho a) p) as [E2|E2]; subst; try congruence;
          destruct (bit x (rho a)), (bit x (rho b0)); try discriminate Ex; try reflexivity; now destruct (bit x p).
      - destruct (Nat.eqb_spec (rho b0) p) as [E1|E1], (Nat.eqb_spec (rho a) p) as [E2|E2]; subst; try congruence;
          destruct (bit x (rho a)), (bit x (rho b0)); try discriminate Ex; reflexivity. }
    rewrite E1. replace (flipb (flipb x (rho a)) (rho b0)) with (flipb (flipb x (rho b0)) (rho a)) by
      (apply bit_ext; intros p; rewrite !bit_flipb; destruct (bit x p), (Nat.eqb (rho a) p), (Nat.eqb (rho b0) p); reflexivity).
    rewrite !bit_flipb, ?Nat.eqb_refl, ?(proj2 (Nat.eqb_neq (rho a) (rho b0)) Hn), ?(proj2 (Nat.eqb_neq (rho b0) (rho a)) (not_eq_sym Hn)).
    replace (flipb (flipb x (rho b0)) (rho a)) with (flipb (flipb x (rho a)) (rho b0)) by
      (apply bit_ext; intros p; rewrite !bit_flipb; destruct (bit x p), (Nat.eqb (rho a) p), (Nat.eqb (rho b0) p); reflexivity).
    destruct (bit x (rho a)), (bit x (rho b0)); cbn [xorb sg]; change (Am (-1) 0 0 0) with (aopp aone); ring.
  - destruct (q <? w) eqn:E; [|discriminate]. apply Nat.ltb_lt in E. injection Hs as <-. split; [|exact Hk]. cbn [sk ss st]. rewrite (Hb eq_refl).
    intros x. cbn [fst snd]. rewrite Nat.add_1_r, two_S. unfold resetTo. destruct b.
    + rewrite den_X by auto. unfold Xop. rewrite den_Pj by auto. rewrite pj_form. cbn [fst snd]. rewrite bit_flipb, Nat.eqb_refl, Hd.
      pose proof (upd_flip x (rho q)) as F. destruct (bit x (rho q)); cbn [xorb Bool.eqb negb] in *; [now rewrite amul_0_r|]. rewrite F. ring.
    + rewrite den_Pj by auto. rewrite pj_form. cbn [fst snd]. rewrite Hd. pose proof (upd_same x (rho q)) as F.
      destruct (bit x (rho q)); cbn [Bool.eqb]; [now rewrite amul_0_r|]. rewrite F. ring.
  - destruct (q <? w) eqn:E; [|discriminate]. apply Nat.ltb_lt in E. injection Hs as <-. rewrite (Hb eq_refl). split; cbn [sk ss st creg km kc].
    + intros x. cbn [fst snd]. rewrite Nat.add_1_r, two_S. unfold project. rewrite den_Pj by auto. rewrite pj_form. cbn [fst snd]. rewrite Hd.
      destruct (Bool.eqb _ _); [ring|apply amul_0_r].
    + intros j. change (N.setbit (km s) (N.of_nat c)) with (upd (km s) c true). rewrite !bit_upd. destruct (Nat.eqb_spec c j) as [->|Ej]; [rewrite Nat.eqb_refl; reflexivity|].
      rewrite (proj2 (Nat.eqb_neq (off + c)%nat (off + j)%nat)) by lia. apply Hk.
  - destruct (known (km s) lo w0) eqn:E; [|discriminate]. pose proof (value_ok s _ lo w0 Hrel0 E) as Ev. cbn [creg] in Ev. rewrite Ev.
    destruct (N.eqb _ _).
    + destruct (sGate w g [] t (sk s) (ss s)) as [[k x]|] eqn:Eg; [|discriminate]. injection Hs as <-. split; [|exact Hk]. cbn [sk ss st].
      exact (sGate_ok _ _ _ _ _ _ _ Eg Hr).
    + injection Hs as <-. exact Hrel0.
Qed.
Lemma normS_ok s c : rel s c -> rel (normS gs s) c.
Proof.
  intros [Hr Hk]. unfold normS. pose proof (norm_ok w rho inj f0 gs (sk s) (ss s) (st c) Hgs Hr) as Hn. destruct (norm gs (sk s) (ss s)). split; [exact Hn|exact Hk].
Qed.
Lemma rel_zero s c : rel s c -> ss s = [] -> st c == zero.
Proof. intros [Hr _] E x. specialize (Hr x). rewrite E in Hr. cbn [fst snd] in Hr. rewrite den_nil in Hr. apply (cancel_two (sk s)). rewrite Hr. unfold zero. now rewrite amul_0_r. Qed.
Lemma ren_rand o : isRand (ren rho off o) = isRand o. Proof. now destruct o. Qed.

Theorem chk_sound P os : forall acc s c, chk w gs P os acc s = true -> rel s c ->
  st (run (map (ren rho off) os) c) == zero \/
  exists s', P (rev acc ++ taken os (outs c)) s' = true /\ ss s' <> [] /\ rel s' (run (map (ren rho off) os) c).
Proof.
  induction os as [|o os IHo]; intros acc s c Hc Hr.
  - cbn [map]. unfold run. cbn [fold_left taken]. destruct (ss s) eqn:E; [left; exact (rel_zero s c Hr E)|].
    right. exists s. rewrite app_nil_r. cbn [chk] in Hc. rewrite E in Hc. split; [exact Hc|]. split; [congruence|exact Hr].
  - cbn [chk] in Hc. destruct (ss s) as [|t0 r0] eqn:E.
    { left. pose proof (rel_zero s c Hr E) as Hz. destruct c. now apply run_zero. }
    assert (G : forall b acc', (isRand o = true -> hd false (outs c) = b) ->
              (match sop w o b s with Some s' => chk w gs P os acc' (normS gs s') | None => false end) = true ->
              st (run (map (ren rho off) (o :: os)) c) == zero \/
              exists s', P (rev acc' ++ taken os (outs (step c (ren rho off o)))) s' = true /\ ss s' <> [] /\ rel s' (run (map (ren rho off) (o :: os)) c)).
    { intros b acc' Hb Hgo. destruct (sop w o b s) as [s'|] eqn:Es; [|discriminate]. cbn [map]. unfold run. cbn [fold_left].
      apply (IHo acc' (normS gs s')); [exact Hgo|]. apply normS_ok. exact (sop_ok o b s s' c Es Hr Hb). }
    cbn [taken]. destruct (isRand o) eqn:Er.
    + apply andb_true_iff in Hc. destruct Hc as [H0 H1]. assert (Eo : outs (step c (ren rho off o)) = tl (outs c)) by (destruct o; try discriminate; reflexivity).
      rewrite Eo in G. destruct (hd false (outs c)) eqn:Eh.
      * specialize (G true (true :: acc) (fun _ => eq_refl) H1). cbn [rev] in G. rewrite <- app_assoc in G. exact G.
      * specialize (G false (false :: acc) (fun _ => eq_refl) H0). cbn [rev] in G. rewrite <- app_assoc in G. exact G.
    + assert (Eo : outs (step c (ren rho off o)) = outs c) by (destruct o; try discriminate; reflexivity). rewrite Eo in G.
      apply (G false acc); [discriminate|exact Hc].
Qed.
End Sound.

(** ** Stabilizers given as words of Pauli gates *)
Definition word (d : nat -> nat) (l : list (gt * nat)) : list op := map (fun p => Gate (fst p) [] (d (snd p))) l.
Definition init : sst := mkS 0 0 0 [(aone, (0, 0)%N)].
(** with the outcomes of a record *)
Fixpoint simR (w : nat) (gs : list gen) (os : list op) (rec : list bool) (s : sst) : option sst :=
  match os with
  | [] => Some s
  | o :: os' => match sop w o (hd false rec) s with Some s' => simR w gs os' (if isRand o then tl rec else rec) (normS gs s') | None => None end
  end.
Definition wordT (w : nat) (l : list (gt * nat)) : option (bool * N * N) :=
  match simR w [] (word (fun j => j) l) [] init with
  | Some s => match sk s, ss s with
              | 0, [(c, (u, v))] => if negb (N.eqb (N.shiftr u (N.of_nat w)) 0) then None
                                    else if aeqb c aone then Some (false, u, v) else if aeqb c (aopp aone) then Some (true, u, v) else None
              | _, _ => None
              end
  | None => None
  end.
Fixpoint wordsT (w : nat) (l : list (list (gt * nat))) : option (list (bool * N * N)) :=
  match l with
  | [] => Some []
  | a :: l' => match wordT w a, wordsT w l' with Some t, Some r => Some (t :: r) | _, _ => None end
  end.
(** all that is checked of a template: from any state fixed by the words, every branch of the circuit is impossible or ends as [P] says *)
Definition chkW (w : nat) (words : list (list (gt * nat))) (P : list bool -> sst -> bool) (os : list op) : bool :=
  match wordsT w words with Some ts => chk w (ech ts) P os [] init | None => false end.

Definition simRW (w : nat) (words : list (list (gt * nat))) (os : list op) (rec : list bool) : option sst :=
  match wordsT w words with Some ts => simR w (ech ts) os rec init | None => None end.
Definition termEqb (a b : term) : bool := aeqb (fst a) (fst b) && N.eqb (fst (snd a)) (fst (snd b)) && N.eqb (snd (snd a)) (snd (snd b)).
Fixpoint sumEqb (a b : sum) : bool := match a, b with [], [] => true | x :: a', y :: b' => termEqb x y && sumEqb a' b' | _, _ => false end.
Lemma sumEqb_eq a : forall b, sumEqb a b = true -> a = b.
Proof.
  induction a as [|[c [u v]] a IHa]; intros [|[c' [u' v']] b]; cbn [sumEqb]; try discriminate; [reflexivity|]. unfold termEqb. cbn [fst snd].
  rewrite !andb_true_iff, !N.eqb_eq. intros [[[E1 ->] ->] E2]. apply aeqb_eq in E1. apply IHa in E2. congruence.
Qed.
Definition fixedBy (w : nat) (words : list (list (gt * nat))) (l : list (gt * nat)) (s : sst) : bool :=
  match wordsT w words with
  | Some ts => match simR w (ech ts) (word (fun j => j) l) [] s with Some s' => (sk s' =? sk s) && sumEqb (ss s') (ss s) | None => false end
  | None => false
  end.

Section Words.
Variable w : nat.
Variable rho : nat -> nat.
Hypothesis inj : forall i j, i < w -> j < w -> rho i = rho j -> i = j.
Variable off : nat.
Variable f0 : state.
Lemma rel_init c : st c == f0 -> rel w rho off f0 init c.
Proof.
  intros E. split; [|cbn [init km]; intros j Hj; rewrite bit_0 in Hj; discriminate]. intros x. cbn [init sk ss fst snd]. rewrite den_cons, den_nil. cbn [fst snd].
  rewrite pact_0, two_0, E. ring.
Qed.
Lemma simR_ok gs : Forall (fixes w rho f0) gs -> forall os s s' c,
  simR w gs os (outs c) s = Some s' -> rel w rho off f0 s c -> rel w rho off f0 s' (run (map (ren rho off) os) c).
Proof.
  intros Hg. induction os as [|o os IHo]; intros s s' c Hs Hr; [injection Hs as <-; exact Hr|]. cbn [simR] in Hs.
  destruct (sop w o (hd false (outs c)) s) as [s1|] eqn:E; [|discriminate]. cbn [map]. unfold run. cbn [fold_left]. apply (IHo (normS gs s1)).
  - rewrite <- Hs. f_equal. destruct o; reflexivity.
  - apply (normS_ok w rho inj off f0 gs Hg). apply (sop_ok w rho inj off f0 o (hd false (outs c)) s s1 c E Hr). reflexivity.
Qed.
Lemma ren_word d l : map (ren rho off) (word d l) = word (fun j => rho (d j)) l.
Proof. unfold word. rewrite map_map. reflexivity. Qed.
Lemma wordT_ok l t : wordT w l = Some t -> after (word rho l) f0 == f0 -> fixesT w rho f0 t.
Proof.
  unfold wordT. destruct (simR w [] (word (fun j => j) l) [] init) as [s|] eqn:E; [|discriminate]. destruct s as [a b k x]. cbn [sk ss].
  destruct k; [|discriminate]. destruct x as [|[c [u v]] [|]]; try discriminate. destruct (N.eqb (N.shiftr u (N.of_nat w)) 0) eqn:Eu; [|discriminate]. cbn [negb].
  apply N.eqb_eq in Eu. assert (Hu : forall i, w <= i -> bit u i = false).
  { intros i Hi. unfold bit. replace (N.of_nat i) with (N.of_nat (i - w) + N.of_nat w)%N by lia. rewrite <- N.shiftr_spec by apply N.le_0_l. rewrite Eu. apply N.bits_0. }
  intros Ht Hf. pose proof (simR_ok [] (Forall_nil _) _ _ _ (mkConf 0 [] f0) E (rel_init (mkConf 0 [] f0) (fun x => eq_refl))) as [Hr _]. rewrite ren_word in Hr.
  assert (G : forall x, c * pact w rho (u, v) f0 x = f0 x).
  { intros x. assert (Hx : two 0 * after (word rho l) f0 x = den w rho f0 [(c, (u, v))] x) by exact (Hr x). clear Hr. rename Hx into Hr.
    rewrite den_cons, den_nil, two_0 in Hr. cbn [fst snd] in Hr. rewrite Hf in Hr. transitivity (c * pact w rho (u, v) f0 x + azero); [ring|]. rewrite <- Hr. ring. }
  destruct (aeqb c aone) eqn:E1; [|destruct (aeqb c (aopp aone)) eqn:E2; [|discriminate]]; injection Ht as <-; (split; [exact Hu|]); intros x; cbn [sg].
  - apply aeqb_eq in E1. subst c. apply G.
  - apply aeqb_eq in E2. subst c. apply G.
Qed.
Lemma wordsT_ok words : forall ts, wordsT w words = Some ts -> (forall l, In l words -> after (word rho l) f0 == f0) -> Forall (fixes w rho f0) (ech ts).
Proof.
  intros ts E Hf. apply ech_ok; [exact inj|]. revert ts E. induction words as [|l words IHw]; intros ts E; cbn [wordsT] in E; [injection E as <-; constructor|].
  destruct (wordT w l) as [t|] eqn:E1; [|discriminate]. destruct (wordsT w words) as [r|]; [|discriminate]. injection E as <-. constructor.
  - apply (wordT_ok l t E1). apply Hf. now left.
  - apply IHw; [|reflexivity]. intros l' Hl. apply Hf. now right.
Qed.
Theorem chkW_sound words P os c : chkW w words P os = true -> (forall l, In l words -> after (word rho l) f0 == f0) -> st c == f0 ->
  st (run (map (ren rho off) os) c) == zero \/
  exists s', P (taken os (outs c)) s' = true /\ ss s' <> [] /\ rel w rho off f0 s' (run (map (ren rho off) os) c).
Proof.
  unfold chkW. destruct (wordsT w words) as [ts|] eqn:E; [|discriminate]. intros Hc Hf Hs.
  exact (chk_sound w rho inj off f0 (ech ts) (wordsT_ok words ts E Hf) P os [] init c Hc (rel_init c Hs)).
Qed.
Theorem simRW_sound words os c s' : simRW w words os (outs c) = Some s' -> (forall l, In l words -> after (word rho l) f0 == f0) -> st c == f0 ->
  rel w rho off f0 s' (run (map (ren rho off) os) c).
Proof.
  unfold simRW. destruct (wordsT w words) as [ts|] eqn:E; [|discriminate]. intros Hc Hf Hs.
  exact (simR_ok (ech ts) (wordsT_ok words ts E Hf) os init s' c Hc (rel_init c Hs)).
Qed.
(** a word fixes what the simulator reached *)
Lemma fixedBy_ok words l s c : fixedBy w words l s = true -> (forall l, In l words -> after (word rho l) f0 == f0) -> rel w rho off f0 s c ->
  after (word rho l) (st c) == st c.
Proof.
  unfold fixedBy. destruct (wordsT w words) as [ts|] eqn:E; [|discriminate]. destruct (simR w (ech ts) (word (fun j => j) l) [] s) as [s'|] eqn:Es; [|discriminate].
  intros Heq Hf Hr. apply andb_true_iff in Heq. destruct Heq as [E1 E2]. apply Nat.eqb_eq in E1. apply sumEqb_eq in E2.
  assert (Hr0 : rel w rho off f0 s (mkConf (creg c) [] (st c))) by exact Hr.
  pose proof (simR_ok (ech ts) (wordsT_ok words ts E Hf) _ _ _ (mkConf (creg c) [] (st c)) Es Hr0) as [Hr' _]. rewrite ren_word in Hr'.
  assert (Ea : st (run (word rho l) (mkConf (creg c) [] (st c))) == after (word rho l) (st c)).
  { clear. unfold after, word. revert c. induction l as [|a l IHl]; intros c x; [reflexivity|]. cbn [map]. unfold run. cbn [fold_left]. 
    exact (IHl (mkConf (creg c) [] (gate (fst a) [] (rho (snd a)) (st c))) x). }
  intros x. rewrite <- Ea. apply (cancel_two (sk s)). destruct Hr as [Hr _]. specialize (Hr x). specialize (Hr' x). cbn [fst snd] in Hr, Hr'. rewrite E1, E2 in Hr'.
  rewrite Hr. rewrite <- Hr'. reflexivity.
Qed.
End Words.
