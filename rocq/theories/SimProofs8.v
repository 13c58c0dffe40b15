(** * SimProofs8: the result of _simulate_batch *)
From Coq Require Import Permutation.
From Verif Require Export SimProofs7.
From Verif Require Import PropCss.
Local Open Scope nat_scope.

Lemma forallb_perm {A} (f : A -> bool) l l' : Permutation l l' -> forallb f l = forallb f l'.
Proof. induction 1 as [|x l l' P IHP|x y l|l l' l'' P1 I1 P2 I2]; cbn; auto; [now rewrite IHP|destruct (f x), (f y); auto|congruence]. Qed.
Lemma accept_firstn (idx : list nat) m rec : Permutation idx (seq 0 m) -> m <= length rec -> forallb negb (columns idx rec) = forallb negb (firstn m rec).
Proof. intros P H. rewrite (forallb_perm negb _ (columns (seq 0 m) rec)) by (now apply Permutation_map). f_equal.
  assert (X := columns_mid [] (firstn m rec) (skipn m rec)). cbn [app length] in X. rewrite firstn_skipn, firstn_length_le in X by auto. exact X. Qed.
Lemma forall2_combine {A B} (R : A -> B -> Prop) l1 l2 : Forall2 R l1 l2 -> forall x, In x (combine l1 l2) -> R (fst x) (snd x).
Proof. induction 1 as [|a b l1 l2 H F IHF]; intros x I; [destruct I|]. destruct I as [<-|I]; auto. Qed.

Lemma existsb_mp {A} (f : A -> bool) l : existsb (fun b => b) (map f l) = existsb f l.
Proof. induction l as [|a l IHl]; auto. cbn. now rewrite IHl. Qed.

Section Batch.
Variables (L : ldpc) (distance : Z) (Hx Hz : option nd) (xd zd : option Z) (c : css) (init : bool) (os : list lut_op) (p : Q) (par : bool) (nq : nat) (layers : list (list ins)) (zs : bool).
Hypotheses (HL : ldpc_ok L) (OX : opt_ok Hx) (OZ : opt_ok Hz) (HC : CSSCode L distance Hx Hz xd zd = Ret c).
Let n := sc_n (css_stab c).
Let s := set_p p par nq layers zs c (lut_run (LutDecoder c init) os).
Hypothesis (HN : s_n s = Z.of_nat n).
Let synd : vec -> py vec := if zs then get_z_syndrome c else get_x_syndrome c.
Let stab : mat := if zs then nd_rows (css_Hx c) else nd_rows (css_Hz c).
Let data (rec : list bool) : vec := columns (s_data s) rec.
Let syn_cols : list nat := if zs then s_z s else s_x s.
Hypothesis (HD : zs = true \/ is_self_dual c = false \/ (css_Hx c = css_Hz c /\ (init = true \/ existsb has_x os = true))).
Lemma sampled_syndrome errs rec : possible (s_ops s) errs rec -> length (data rec) = n /\ synd (data rec) = Ret (columns syn_cols rec).
Proof. intros P. destruct (CSSCode_inv L distance Hx Hz xd zd c OX OZ HC) as ((EX & EZ & WX & WZ & O & _ & _ & En & _ & _) & _). fold n in En. rewrite <- En in *.
  destruct (set_p_syndrome p par nq layers zs c _ n (nd_rows (hx_of Hx Hz)) (nd_rows (hz_of Hx Hz)) EX EZ WX WZ O HN errs rec P) as (L1 & L2 & L3 & E). fold s in L1, L2, L3, E. split; auto.
  unfold synd, syn_cols, data. destruct zs; unfold get_z_syndrome, get_x_syndrome, matvec; [rewrite EZ|rewrite EX]; cbn [nd_cols nd_rows]; rewrite L1, Nat.eqb_refl, E; reflexivity. Qed.
Lemma batch_decoded events : events <> [] -> Forall (fun rec => exists errs, possible (s_ops s) errs rec) events ->
  exists st ests, (if zs then batch_decode decode_x (map (columns (s_z s)) events) 1 (s_dec s) else batch_decode decode_z (map (columns (s_x s)) events) 1 (s_dec s)) = (st, Ret ests) /\
    Forall2 (fun rec est => least synd (data rec) est) events ests.
Proof. intros NE F.
  assert (F2 : Forall2 (fun e sy => synd e = Ret sy) (map data events) (map (columns syn_cols) events)).
  { clear NE. induction F as [|rec events (errs & P) F IHF]; cbn; constructor; auto. now destruct (sampled_syndrome errs rec P). }
  assert (M2 : forall ests, Forall2 (fun est sy => synd est = Ret sy /\ forall e', synd e' = Ret sy -> weight est <= weight e') ests (map (columns syn_cols) events) -> Forall2 (fun rec est => least synd (data rec) est) events ests).
  { clear NE F. revert F2. induction events as [|rec events IHE]; cbn; intros F2 ests G; inversion G; subst; [constructor|]. inversion F2; subst. constructor; auto. exists (columns syn_cols rec). destruct H2. auto. }
  assert (DEC : s_dec s = lut_run (LutDecoder c init) os) by reflexivity. rewrite DEC. unfold synd, syn_cols in *. destruct zs.
  - destruct (C25_batch_decode_x L distance Hx Hz xd zd c init os (map data events) (map (columns (s_z s)) events) OX OZ HC) as (st & ests & E1 & E2); [destruct events; [congruence|discriminate]|exact F2|]. exists st, ests. split; [exact E1|apply M2; exact E2].
  - destruct HD as [|HD']; [discriminate|]. destruct (batch_z L distance Hx Hz xd zd c init (map data events) (map (columns (s_x s)) events) OX OZ HC F2 os HD') as (st & ests & E1 & E2). exists st, ests. split; [|apply M2; exact E2].
    unfold batch_decode. destruct (map (columns (s_x s)) events) eqn:EE; auto. destruct events; [congruence|discriminate]. Qed.
Lemma synd_xor a b : forall sy, synd a = Ret sy -> synd b = Ret sy -> exists z, synd (vxor a b) = Ret z /\ z = vzero (length z).
Proof. intros sy. destruct (CSSCode_inv L distance Hx Hz xd zd c OX OZ HC) as ((EX & EZ & WX & WZ & O & _ & _ & En & _ & _) & _).
  assert (G : forall m h, matvec (mkNd m h) a = Ret sy -> matvec (mkNd m h) b = Ret sy -> exists z, matvec (mkNd m h) (vxor a b) = Ret z /\ z = vzero (length z)).
  { intros m h. unfold matvec. cbn [nd_cols nd_rows]. destruct (Nat.eqb_spec m (length a)) as [Ea|]; [|discriminate]. destruct (Nat.eqb_spec m (length b)) as [Eb|]; [|discriminate]. intros A B. injection A as <-. injection B as B.
    rewrite vxor_length by congruence. rewrite <- Ea, Nat.eqb_refl. eexists. split; [reflexivity|]. revert B. clear - Ea Eb. unfold mulMV, vzero. rewrite map_length. induction h as [|r h IHh]; cbn; auto. intros B. injection B as B1 B2. rewrite IHh by auto. f_equal. rewrite dot_vxor_r by congruence. rewrite B1. apply xorb_nilpotent. }
  unfold synd. destruct zs; unfold get_z_syndrome, get_x_syndrome; [rewrite EZ|rewrite EX]; apply G. Qed.
Lemma verdict d est : length d = n -> least synd d est -> length est = n /\
  let obs := if zs then css_Lz c else css_Lx c in Forall (fun o => length o = n) obs /\ (existsb (fun o => dot o (vxor d est)) obs = false <-> span n stab (vxor d est)).
Proof. intros Ld (sy & S1 & S2 & _). destruct (CSSCode_inv L distance Hx Hz xd zd c OX OZ HC) as ((EX & EZ & WX & WZ & O & ELx & ELz & En & _ & _) & _). fold n in En.
  assert (Le : length est = n).
  { unfold synd in S2. rewrite En. destruct zs; unfold get_z_syndrome, get_x_syndrome, matvec in S2; [rewrite EZ in S2|rewrite EX in S2]; cbn [nd_cols] in S2; destruct (Nat.eqb_spec (nd_cols (hx_of Hx Hz)) (length est)); congruence. }
  split; auto. cbn zeta. assert (OB : Forall (fun o => length o = n) (if zs then css_Lz c else css_Lx c)).
  { rewrite En. destruct zs; [rewrite ELz|rewrite ELx].
    - apply compute_logical_spec; auto. intros r I. split; [exact (wf_in _ _ r WZ I)|]. intros q Iq. now apply O.
    - apply compute_logical_spec; auto. intros r I. split; [exact (wf_in _ _ r WX I)|]. intros q Iq. rewrite dot_comm. now apply O. }
  split; auto. destruct (synd_xor d est sy S1 S2) as (z & Z1 & Z2). assert (LX : length (vxor d est) = n) by (rewrite vxor_length; congruence). unfold synd, stab in *. destruct zs.
  - destruct (C13_logical_x_error L distance Hx Hz xd zd c _ z HL OX OZ HC Z1 Z2) as (b & B1 & B2). fold n in B2. rewrite <- B2. unfold check_if_logical_x_error, matvec in B1. rewrite EX in B1. cbn [nd_cols nd_rows] in B1. rewrite <- En, LX, Nat.eqb_refl in B1. cbn [pbind] in B1. injection B1 as <-.
    unfold mulMV. rewrite existsb_mp. tauto.
  - destruct (C13_logical_z_error L distance Hx Hz xd zd c _ z HL OX OZ HC Z1 Z2) as (b & B1 & B2). fold n in B2. rewrite <- B2. unfold check_if_logical_z_error, matvec in B1. rewrite EX in B1. cbn [nd_cols nd_rows] in B1. rewrite <- En, LX, Nat.eqb_refl in B1. cbn [pbind] in B1. injection B1 as <-.
    unfold mulMV. rewrite existsb_mp. tauto. Qed.
Theorem batch_result events : Forall (fun rec => exists errs, possible (s_ops s) errs rec) events ->
  let accepted := filter (fun rec => forallb negb (firstn (length (measured_qubits (concat layers))) rec)) events in
  exists st flags, simulate_batch s events = (st, Ret (length (filter (fun b => b) flags), length events - length accepted)) /\
    Forall2 (fun rec f => exists est, least synd (data rec) est /\ (f = false <-> span n stab (vxor (data rec) est))) accepted flags.
Proof. intros F accepted. assert (AC : filter (fun row => forallb negb (columns (s_xv s ++ s_zv s) row)) events = accepted).
  { unfold accepted. apply filter_ext_in. intros rec I. rewrite Forall_forall in F. destruct (F rec I) as (errs & LR & _). destruct (rec_all p par nq layers) as [R1 _ R3 R4 _ _ _ _]. rewrite <- R3. apply accept_firstn; [exact R4|].
    rewrite LR. destruct (CSSCode_inv L distance Hx Hz xd zd c OX OZ HC) as ((EX & EZ & WX & WZ & O & _ & _ & En & _ & _) & _). fold n in En. rewrite <- En in *.
    destruct (set_p_records p par nq layers zs c _ n (nd_rows (hx_of Hx Hz)) (nd_rows (hz_of Hx Hz)) EX EZ WX WZ HN) as (RR & _). fold s in RR. rewrite RR, app_length, R1, map_length, R3. lia. }
  assert (FA : Forall (fun rec => exists errs, possible (s_ops s) errs rec) accepted) by (apply Forall_forall; intros x I; apply filter_In in I as [I _]; rewrite Forall_forall in F; auto).
  unfold simulate_batch. rewrite AC. clear AC. clearbody accepted. destruct (Nat.eqb_spec (length accepted) 0) as [E0|E0].
  - destruct accepted; [|discriminate]. exists (s_dec s), []. split; [cbn [filter length]; now rewrite Nat.sub_0_r|constructor].
  - destruct (batch_decoded accepted) as (st & ests & E1 & E2); [intros ->; now apply E0|auto|]. replace (s_zero s) with zs by reflexivity. rewrite E1.
    assert (G : Forall2 (fun rec est => length (data rec) = n /\ least synd (data rec) est) accepted ests).
    { clear F E0 E1. revert ests E2. induction FA as [|rec acc (errs & P) FA IHa]; intros ests E2; inversion E2; subst; constructor; auto. split; auto. now destruct (sampled_syndrome errs rec P). }
    assert (LE : forall x, In x (combine (map (columns (s_data s)) accepted) ests) -> length (fst x) = n /\ least synd (fst x) (snd x)).
    { assert (G2 : Forall2 (fun d est => length d = n /\ least synd d est) (map (columns (s_data s)) accepted) ests) by (revert G; clear; induction 1; cbn; constructor; auto). exact (forall2_combine _ _ _ G2). }
    replace (forallb (fun x => length (fst x) =? length (snd x)) (combine (map (columns (s_data s)) accepted) ests)) with true.
    2:{ symmetry. apply forallb_forall. intros x I. destruct (LE x I) as [L1 L2]. destruct (verdict _ _ L1 L2) as [L3 _]. apply Nat.eqb_eq. exact (eq_trans L1 (eq_sym L3)). }
    cbn [negb]. set (obs := if zs then css_Lz (s_code s) else css_Lx (s_code s)). set (corr := map (fun x => vxor (fst x) (snd x)) (combine (map (columns (s_data s)) accepted) ests)).
    replace (forallb (fun r => forallb (fun o => length o =? length r) obs) corr) with true.
    2:{ symmetry. apply forallb_forall. intros r I. unfold corr in I. apply in_map_iff in I as (x & <- & I). destruct (LE x I) as [L1 L2]. destruct (verdict _ _ L1 L2) as [L3 [L4 _]]. apply forallb_forall. intros o Io. apply Nat.eqb_eq. rewrite Forall_forall in L4. rewrite vxor_length by exact (eq_trans L1 (eq_sym L3)). exact (eq_trans (L4 o Io) (eq_sym L1)). }
    cbn [negb]. exists st, (map (fun r => existsb (fun o => dot o r) obs) corr). split; [now rewrite <- count_map|].
    unfold corr. clear F FA E0 E1 E2 LE corr. induction G as [|rec est acc ests [L1 L2] G IHG]; cbn [map combine]; constructor; auto. exists est. split; auto. destruct (verdict _ _ L1 L2) as [_ [_ V]]. exact V. Qed.
End Batch.
