(** * SimProofs7: set_p and _simulate_batch *)
From Coq Require Import Permutation.
From Verif Require Export SimProofs6 PropLut.
From Verif Require Import PropCss.
Local Open Scope nat_scope.

Lemma flen_le {A} (f : A -> bool) l : length (filter f l) <= length l.
Proof. induction l as [|a l IHl]; cbn; auto. destruct (f a); cbn; lia. Qed.
Section SetP.
Variables (p : Q) (par : bool) (nq : nat) (layers : list (list ins)) (zs : bool) (c : css) (dec : lutdec) (n : nat) (hx hz : mat).
Hypotheses (EX : css_Hx c = mkNd n hx) (EZ : css_Hz c = mkNd n hz) (WX : wf n hx) (WZ : wf n hz) (HO : orthogonal hx hz).
Let t := to_stim_circ p par nq layers.
Let k := num_qubits (t_ops t).
Let s := set_p p par nq layers zs c dec.
Hypothesis (HN : s_n s = Z.of_nat n).
Lemma reused_le : t_reused t <= length (t_xv t) + length (t_zv t).
Proof. destruct (rec_all p par nq layers) as [_ _ R3 R4 _ _ _ R8]. fold t in R3, R4, R8. apply Permutation_length in R4. rewrite app_length, seq_length in R4. rewrite R4, R3, R8.
  etransitivity; [apply flen_le|]. apply NoDup_incl_length; [apply NoDup_nodup|]. intros x I. now apply nodup_In in I. Qed.
Lemma n_le_k : n <= k.
Proof. unfold s, set_p in HN. cbn [s_n] in HN. fold t in HN. fold k in HN. assert (R := reused_le). lia. Qed.
Lemma set_p_ops : s_ops s = t_ops t ++ checks true k hx ++ checks false (k + length hx) hz ++ map (fun q => if zs then SMR q else SMRX q) (seq 0 n).
Proof. assert (K := n_le_k). unfold s, set_p in *. cbn [s_ops s_n] in *. rewrite HN, Nat2Z.id, EX, EZ. cbn [nd_rows]. fold t.
  destruct (measure_checks_shape true hx (t_ops t)) as [M1 M2]; [intros r q I J; apply support_lt in J; rewrite (wf_in n hx r WX I) in J; fold k; lia|]. fold k in M1, M2.
  destruct (measure_checks_shape false hz (measure_checks true hx (t_ops t))) as [M3 M4]; [intros r q I J; apply support_lt in J; rewrite (wf_in n hz r WZ I) in J; lia|].
  rewrite M3, M2, M1, <- !app_assoc. reflexivity. Qed.
Lemma set_p_qubits : num_qubits (s_ops s) = k + length hx + length hz.
Proof. assert (K := n_le_k). rewrite set_p_ops. rewrite !app_assoc.
  destruct (measure_checks_shape true hx (t_ops t)) as [M1 M2]; [intros r q I J; apply support_lt in J; rewrite (wf_in n hx r WX I) in J; fold k; lia|]. fold k in M1, M2.
  destruct (measure_checks_shape false hz (measure_checks true hx (t_ops t))) as [M3 M4]; [intros r q I J; apply support_lt in J; rewrite (wf_in n hz r WZ I) in J; lia|].
  rewrite M2, M1 in M3. rewrite M2, M1 in M4. fold (checks true k hx) in M3, M4. fold (checks false (k + length hx) hz) in M3.
  assert (B := M4). rewrite M3 in B. set (pre := (t_ops t ++ checks true k hx) ++ checks false (k + length hx) hz) in *. rewrite <- B. unfold num_qubits at 1. rewrite flat_map_app, map_app, list_max_app. apply Nat.max_l.
  apply list_max_le, Forall_forall. intros x I. apply in_map_iff in I as (q & <- & I). apply in_flat_map in I as (o & Io & I). apply in_map_iff in Io as (q' & <- & Iq). apply in_seq in Iq. assert (q = q') as -> by (destruct zs; destruct I as [<-|[]]; reflexivity).
  fold (num_qubits pre). lia. Qed.
Lemma set_p_records : records (s_ops s) = records (t_ops t) ++ map (fun a => (a, true)) (seq k (length hx)) ++ map (fun a => (a, false)) (seq (k + length hx) (length hz)) ++ map (fun q => (q, negb zs)) (seq 0 n) /\
  s_x s = seq (length (records (t_ops t))) (length hx) /\ s_z s = seq (length (records (t_ops t)) + length hx) (length hz) /\ s_data s = seq (length (records (t_ops t)) + length hx + length hz) n.
Proof. assert (NM : t_nm t = length (records (t_ops t))) by (destruct (rec_all p par nq layers) as [R1 _ R3 _ _ _ _ _]; fold t in R1, R3; rewrite R1, map_length; auto). rewrite set_p_ops. split.
  - rewrite !records_app. unfold checks. rewrite !records_checks, records_data. reflexivity.
  - unfold s, set_p. cbn [s_x s_z s_data]. fold t. unfold s, set_p in HN. cbn [s_n] in HN. fold t in HN. rewrite HN, Nat2Z.id, NM, EX, EZ. cbn [nd_rows]. split; auto. split; auto.
    set (b := length (records (t_ops t)) + length hx + length hz). clearbody b. clear. revert b. assert (G : forall m b a, map (fun i => b + i) (seq a m) = seq (b + a) m) by (induction m as [|m IHm]; intros b a; auto; cbn [seq map]; rewrite IHm; f_equal; f_equal; lia). intros b. rewrite G, Nat.add_0_r. reflexivity. Qed.
Theorem set_p_syndrome errs rec : possible (s_ops s) errs rec ->
  length (columns (s_data s) rec) = n /\ length (columns (s_x s) rec) = length hx /\ length (columns (s_z s) rec) = length hz /\
  if zs then columns (s_z s) rec = mulMV hz (columns (s_data s) rec) else columns (s_x s) rec = mulMV hx (columns (s_data s) rec).
Proof. intros (L & x & Lx & NZ). assert (K := n_le_k). destruct set_p_records as (R & CX & CZ & CD). rewrite R, !app_length, !map_length, !seq_length in L.
  rewrite CX, CZ, CD. unfold columns at 1 2 3. rewrite !map_length, !seq_length. split; auto. split; auto. split; auto.
  destruct (list_split3 rec (length (records (t_ops t)) + length hx) (length hz) n ltac:(lia)) as (l1 & oz & d & -> & L1 & Lz & Ld).
  assert (C0 : exists o0 ox, l1 = o0 ++ ox /\ length o0 = length (records (t_ops t)) /\ length ox = length hx).
  { exists (firstn (length (records (t_ops t))) l1), (skipn (length (records (t_ops t))) l1). rewrite firstn_skipn, firstn_length, skipn_length. split; auto. lia. }
  destruct C0 as (o0 & ox & -> & L0 & Lox). rewrite set_p_qubits in *. set (N := k + length hx + length hz) in *. rewrite set_p_ops in NZ.
  rewrite <- app_assoc in NZ. rewrite nexec_app in NZ by auto.
  assert (PU : noise_ops (checks true k hx ++ checks false (k + length hx) hz ++ map (fun q => if zs then SMR q else SMRX q) (seq 0 n)) = []).
  { unfold noise_ops. rewrite !filter_app. fold (noise_ops (checks true k hx)). fold (noise_ops (checks false (k + length hx) hz)). rewrite !checks_pure. cbn [app]. clear. induction (seq 0 n) as [|q l IHq]; auto. cbn [map filter]. destruct zs; exact IHq. }
  rewrite nexec_pure in NZ by exact PU. set (psi := nexec (t_ops t) errs o0 (zero_ket N)) in *.
  assert (CL : forall a, k <= a < N -> clean N [a] psi).
  { intros a Ha. apply clean_nexec; [intros I; apply num_qubits_le in I; fold k in I; lia|intros q I; apply num_qubits_le in I; fold k in I; lia|apply clean_ket; lia]. }
  assert (DD : columns (seq (length (records (t_ops t)) + length hx + length hz) n) ((o0 ++ ox) ++ oz ++ d) = d).
  { assert (X := columns_mid (o0 ++ ox ++ oz) d []). rewrite !app_length, L0, Lox, Lz, Ld, app_nil_r, <- !app_assoc in X. rewrite Nat.add_assoc in X. rewrite <- app_assoc. exact X. }
  rewrite DD. destruct zs.
  - assert (DZ : columns (seq (length (records (t_ops t)) + length hx) (length hz)) ((o0 ++ ox) ++ oz ++ d) = oz).
    { assert (X := columns_mid (o0 ++ ox) oz d). rewrite app_length, L0, Lox, Lz in X. exact X. }
    rewrite DZ. exact (block_z N n k hx hz WX WZ K eq_refl ox oz d psi x Lox Lz Ld CL Lx NZ).
  - assert (DX : columns (seq (length (records (t_ops t))) (length hx)) ((o0 ++ ox) ++ oz ++ d) = ox).
    { assert (X := columns_mid o0 ox (oz ++ d)). rewrite L0, Lox in X. rewrite <- app_assoc. exact X. }
    rewrite DX. exact (block_x N n k hx hz WX WZ HO K eq_refl ox oz d psi x Lox Lz Ld CL Lx NZ). Qed.
End SetP.

(** ** one batch *)
Lemma batch_z : forall L distance Hx Hz xd zd c init errs syns, opt_ok Hx -> opt_ok Hz -> CSSCode L distance Hx Hz xd zd = Ret c -> Forall2 (fun e s => get_x_syndrome c e = Ret s) errs syns ->
  forall os, (is_self_dual c = false \/ (css_Hx c = css_Hz c /\ (init = true \/ existsb has_x os = true))) ->
  exists st ests, batch decode_z syns 1 (lut_run (LutDecoder c init) os) = (st, Ret ests) /\
    Forall2 (fun est s => get_x_syndrome c est = Ret s /\ forall e', get_x_syndrome c e' = Ret s -> weight est <= weight e') ests syns.
Proof. intros L distance Hx Hz xd zd c init errs syns OX OZ H F.
  assert (LEN : forall e s, get_x_syndrome c e = Ret s -> length e = sc_n (css_stab c)).
  { destruct (CSSCode_inv L distance Hx Hz xd zd c OX OZ H) as ((EX & EZ & WX & WZ & O & _ & _ & En & _ & _) & _). intros e s HS.
    unfold get_x_syndrome, matvec in HS. rewrite EX in HS. cbn [nd_cols] in HS. destruct (Nat.eqb_spec (nd_cols (hx_of Hx Hz)) (length e)); [|discriminate]. now rewrite En. }
  induction F as [|e s errs syns HS F IHF]; intros os HC; cbn [batch]; [eauto|].
  destruct (C25_decode_z_history L distance Hx Hz xd zd c init os e OX OZ H (LEN e s HS) HC) as (syn & st & est & A & B & C & D & E1 & _).
  rewrite HS in A. injection A as <-. change (mkArr 1 s) with (int8 s). rewrite B.
  assert (ST : st = lut_run (LutDecoder c init) (os ++ [OpDecZ (int8 s)])) by (unfold lut_run; rewrite fold_left_app; cbn [fold_left lut_step]; fold (lut_run (LutDecoder c init) os); now rewrite B).
  rewrite ST. destruct (IHF (os ++ [OpDecZ (int8 s)])) as (st' & ests & E2 & F2).
  { destruct HC as [HC|(HC & [HB|HB])]; auto. right. split; auto. right. rewrite existsb_app, HB. reflexivity. }
  rewrite E2. exists st', (est :: ests). split; auto. Qed.
(** the estimate of a decoder: least weight among those with the same syndrome *)
Definition least (syndrome : vec -> py vec) (d est : vec) : Prop := exists s, syndrome d = Ret s /\ syndrome est = Ret s /\ forall e, syndrome e = Ret s -> weight est <= weight e.
Lemma count_map {A} (f : A -> bool) l : length (filter f l) = length (filter (fun b => b) (map f l)).
Proof. induction l as [|a l IHl]; auto. cbn. destruct (f a); cbn; auto. Qed.
