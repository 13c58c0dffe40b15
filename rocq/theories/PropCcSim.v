(** * PropCcSim: property C63, the logical error rates of the LightsOut decoder on color codes *)
From Coq Require Import List Arith Bool QArith String Lia.
From Verif Require Import CcSimModel ColorDecode NamedProofs HexProofs SoCode PropColor PropCss Lin2.
Import ListNotations.
Local Open Scope nat_scope.

(** ** Specification *)
(** est is a lightest vector with the syndrome of err *)
Definition lightest (n : nat) (H : mat) (err est : vec) : Prop :=
  List.length est = n /\ mulMV H est = mulMV H err /\ forall e', List.length e' = n -> mulMV H e' = mulMV H err -> weight est <= weight e'.
(** one sample: the error, the estimate, and whether error and estimate differ by a logical operator *)
Record sample := mkSample { s_err : vec; s_est : vec; s_bad : bool }.
Definition sampled (n d : nat) (H : mat) (s : sample) : Prop :=
  lightest n H (s_err s) (s_est s) /\ (s_bad s = true <-> ~ span n H (vxor (s_err s) (s_est s))) /\ (2 * weight (s_err s) < d -> s_bad s = false).
Definition nbad (l : list sample) : nat := List.length (filter s_bad l).
Definition wt (s : sample) : nat := weight (vxor (s_err s) (s_est s)).
(** -1 if nothing failed, else the least weight of a residual that failed *)
Definition least_bad (l : list sample) (w : Z) : Prop :=
  (w = (-1)%Z /\ nbad l = 0) \/ ((exists s, In s l /\ s_bad s = true /\ w = Z.of_nat (wt s)) /\ forall s, In s l -> s_bad s = true -> (w <= Z.of_nat (wt s))%Z).
Definition qsum (f : nat -> Q) (N : nat) : Q := fold_right (fun i s => (f i + s)%Q) 0%Q (seq 0 N).

(** what the decoder needs to know about a code: the dictionaries describe the matrix *)
Definition layout_ok (c : colorcode) (n m : nat) : Prop :=
  nd_cols (cc_H c) = n /\ wf n (nd_rows (cc_H c)) /\ List.length (nd_rows (cc_H c)) = m /\
  map fst (lay_q2f (cc_lay c)) = seq 0 n /\ map fst (lay_f2q (cc_lay c)) = seq 0 m /\ graph_ok (lay_f2q (cc_lay c)) (lay_q2f (cc_lay c)) /\
  forall j qs, In (j, qs) (lay_f2q (cc_lay c)) -> NoDup qs /\ forall i, In i qs <-> i < n /\ nth i (nth j (nd_rows (cc_H c)) []) false = true.

Lemma odd_b2n v : map Nat.odd (map b2n v) = v.
Proof. rewrite map_map. induction v as [|[] v IH]; cbn; congruence. Qed.

Section One.
  Variables (sv : solver) (c : colorcode) (n m : nat) (l : vec) (times : nat -> Q * Q).
  Hypotheses (SV : solver_ok sv) (LO : layout_ok c n m) (EL : cc_L c = [l]) (Hn : 0 < n).
  Let H := nd_rows (cc_H c).
  Let st := pre_state (lay_f2q (cc_lay c)) (lay_q2f (cc_lay c)).
  Lemma pre_st : preconstruct_z3_instance (LightsOut (lay_f2q (cc_lay c)) (lay_q2f (cc_lay c))) = (st, Ret tt).
  Proof. destruct LO as (_ & _ & _ & _ & _ & G & _). apply preconstruct_ok. now apply graph_lights_ok. Qed.
  Lemma one_solve err : List.length err = n -> exists est, lightest n H err est /\ solve_path (Some sv) (mulMV H err) st = (st, Ret (map b2n est)).
  Proof. intros Le. destruct LO as (A0 & W & LH & K1 & K2 & G & HF). destruct (lights_decode sv n m H _ _ err SV W LH K1 K2 G HF Le) as (st' & est & l' & E1 & E2 & E3 & E4 & E5).
    rewrite pre_st in E1. injection E1 as <-. exists est. split.
    - split; auto. split; auto. rewrite (mulMV_vxor H n) in E4 by auto. symmetry. apply (vxor_eq_zero m); auto; unfold mulMV; now rewrite map_length.
    - unfold solve_path, mbind. rewrite E2. reflexivity. Qed.
  Lemma sim_ok : forall errors i a w ct sl pre, Forall (fun e => List.length e = n) errors -> a = nbad pre -> least_bad pre w ->
    (forall s, In s pre -> s_bad s = dot l (vxor (s_err s) (s_est s))) ->
    exists runs w' ct' sl', sim_loop (Some sv) c times i errors [a] [w] ct sl st = (st, Ret ([nbad (pre ++ runs)], [w'], (ct', sl'))) /\ map s_err runs = errors /\
      Forall (fun s => lightest n H (s_err s) (s_est s) /\ s_bad s = dot l (vxor (s_err s) (s_est s))) runs /\ least_bad (pre ++ runs) w'.
  Proof. induction errors as [|e errors IH]; intros i a w ct sl pre FE Ea LB HP.
    - exists [], w, ct, sl. rewrite app_nil_r, <- Ea. repeat split; auto.
    - apply Forall_cons_iff in FE as [Le FE]. destruct (one_solve e Le) as (est & LS & ES). cbn [sim_loop]. unfold mbind at 1, mlift. unfold cc_get_syndrome, matvec. destruct LO as (A0 & _).
      rewrite A0, Le, Nat.eqb_refl. fold H. unfold mbind at 1. rewrite ES. pose proof LS as (Ls & _ & _).
      assert (L2 : List.length (map b2n est) = n) by (rewrite map_length; exact Ls).
      rewrite L2. rewrite Nat.eqb_refl. replace (0 <? n) with true by (symmetry; apply Nat.ltb_lt; auto). unfold mbind at 1, mret. rewrite EL, odd_b2n. cbn [logical_loop].
      set (s := mkSample e est (dot l (vxor e est))).
      destruct (dot l (vxor e est)) eqn:ED; cbn [fst snd].
      + set (w1 := if (_ : bool) then _ else _). assert (E1 : exists w2, w1 = [w2] /\ least_bad (pre ++ [s]) w2).
        { subst w1. cbn [nth set_nth]. destruct LB as [[-> N0]|[(s0 & I0 & B0 & W0) M0]].
          - exists (Z.of_nat (wt s)). split; [reflexivity|]. right. split; [exists s; repeat split; auto; apply in_or_app; cbn; auto|].
            intros s1 I1 B1. apply in_app_or in I1 as [I1|[<-|[]]]; [|lia]. exfalso. unfold nbad in N0. assert (In s1 (filter s_bad pre)) by (apply filter_In; auto). destruct (filter s_bad pre); [contradiction|discriminate].
          - destruct (Z.eqb_spec w (-1)); [lia|]. cbn [orb]. destruct (Z.ltb_spec (Z.of_nat (weight (vxor e est))) w) as [L|L].
            + exists (Z.of_nat (wt s)). split; [reflexivity|]. right. split; [exists s; repeat split; auto; apply in_or_app; cbn; auto|].
              intros s1 I1 B1. apply in_app_or in I1 as [I1|[<-|[]]]; [|lia]. specialize (M0 s1 I1 B1). unfold wt at 1. cbn [s s_err s_est]. lia.
            + exists w. split; [reflexivity|]. right. split; [exists s0; repeat split; auto; apply in_or_app; auto|].
              intros s1 I1 B1. apply in_app_or in I1 as [I1|[<-|[]]]; auto. }
        destruct E1 as (w2 & -> & LB2). cbn [set_nth nth].
        destruct (IH (S i) (S a) w2 ((ct * inject_Z (Z.of_nat i) + fst (times i)) / (inject_Z (Z.of_nat i) + 1))%Q ((sl * inject_Z (Z.of_nat i) + snd (times i)) / (inject_Z (Z.of_nat i) + 1))%Q (pre ++ [s]) FE) as (runs & w' & ct' & sl' & E1 & E2 & E3 & E4); auto.
        { unfold nbad. rewrite filter_app, app_length. cbn. rewrite Ea. unfold nbad. lia. }
        { intros s1 I1. apply in_app_or in I1 as [I1|[<-|[]]]; auto. }
        exists (s :: runs), w', ct', sl'. rewrite <- app_assoc in E1, E4. cbn [app] in E1, E4. repeat split; auto. cbn. now rewrite E2.
      + destruct (IH (S i) a w ((ct * inject_Z (Z.of_nat i) + fst (times i)) / (inject_Z (Z.of_nat i) + 1))%Q ((sl * inject_Z (Z.of_nat i) + snd (times i)) / (inject_Z (Z.of_nat i) + 1))%Q (pre ++ [s]) FE) as (runs & w' & ct' & sl' & E1 & E2 & E3 & E4); auto.
        { unfold nbad. rewrite filter_app, app_length. cbn. rewrite Ea. unfold nbad. lia. }
        { destruct LB as [[-> N0]|[(s0 & I0 & B0 & W0) M0]]; [left|right].
          - split; auto. unfold nbad in *. rewrite filter_app, app_length. cbn. lia.
          - split; [exists s0; repeat split; auto; apply in_or_app; auto|]. intros s1 I1 B1. apply in_app_or in I1 as [I1|[<-|[]]]; auto. discriminate. }
        { intros s1 I1. apply in_app_or in I1 as [I1|[<-|[]]]; auto. }
        exists (s :: runs), w', ct', sl'. rewrite <- app_assoc in E1, E4. cbn [app] in E1, E4. repeat split; auto. cbn. now rewrite E2. Qed.
End One.

(** the rolling averages *)
Lemma sim_times path c times : forall errors i le mw ct sl s s' le' mw' ct' sl',
  sim_loop path c times i errors le mw ct sl s = (s', Ret (le', mw', (ct', sl'))) ->
  (ct * inject_Z (Z.of_nat i) == qsum (fun x => fst (times x)) i)%Q -> (sl * inject_Z (Z.of_nat i) == qsum (fun x => snd (times x)) i)%Q ->
  (ct' * inject_Z (Z.of_nat (i + List.length errors)) == qsum (fun x => fst (times x)) (i + List.length errors))%Q /\ (sl' * inject_Z (Z.of_nat (i + List.length errors)) == qsum (fun x => snd (times x)) (i + List.length errors))%Q.
Proof. assert (QS : forall f N, (qsum f (S N) == qsum f N + f N)%Q).
  { intros f N. unfold qsum. rewrite seq_S, fold_right_app. cbn [fold_right Nat.add]. generalize (seq 0 N). intros q. induction q as [|x q IH]; cbn [fold_right]; [ring|]. rewrite IH. ring. }
  assert (STEP : forall f i x, (x * inject_Z (Z.of_nat i) == qsum f i -> (x * inject_Z (Z.of_nat i) + f i) / (inject_Z (Z.of_nat i) + 1) * inject_Z (Z.of_nat (S i)) == qsum f (S i))%Q).
  { intros f i x E. rewrite QS, <- E, Nat2Z.inj_succ, <- Z.add_1_r, inject_Z_plus. field. change 1%Q with (inject_Z 1). rewrite <- inject_Z_plus. intros K. unfold Qeq in K. cbn in K. lia. }
  induction errors as [|e errors IH]; intros i le mw ct sl s s' le' mw' ct' sl' E H1 H2; cbn [sim_loop List.length] in E |- *.
  - injection E as <- <- <- <- <-. rewrite Nat.add_0_r. auto.
  - unfold mbind at 1 in E. destruct (mlift (cc_get_syndrome c e) s) as [s1 [li|]]; [|discriminate]. unfold mbind at 1 in E. destruct (solve_path path li s1) as [s2 [es|]]; [|discriminate].
    unfold mbind at 1 in E. rewrite <- Nat.add_succ_comm.
    destruct (0 <? List.length es); [destruct (List.length es =? List.length e)|]; unfold mret, mlift in E; try discriminate; apply (IH _ _ _ _ _ _ _ _ _ _ _ E).
    1, 3: exact (STEP (fun x => fst (times x)) i ct H1). all: exact (STEP (fun x => snd (times x)) i sl H2). Qed.

Lemma span_nil n v : span n [] v -> v = vzero n.
Proof. intros ([|] & Hc & E); [|discriminate]. now symmetry. Qed.
(** every two logically different residuals are told apart by the one logical operator *)
Lemma one_logical n (H : mat) (l : vec) v : wf n H -> orthogonal H H -> in_kernel n H l -> (forall v, in_kernel n H v <-> span n (H ++ [l]) v) -> ~ span n H l ->
  in_kernel n H v -> (dot l v = true <-> ~ span n H v).
Proof. intros W O KL KS NL KV. assert (HZ : forall x, span n H x -> dot l x = false).
  { apply (dot_span_zero n H l W). intros k Hk. rewrite dot_comm. apply KL; auto. }
  assert (Ll : List.length l = n) by apply KL.
  assert (WA : wf n (H ++ [l])) by (apply Forall_app; split; auto).
  assert (DL : dot l l = true).
  { destruct (dot l l) eqn:E; auto. exfalso. apply NL. apply (span_orth n H l W Ll). intros x Hx. apply KS in Hx. revert x Hx. apply (dot_span_zero n (H ++ [l]) l WA).
    intros k Hk. apply in_app_or in Hk as [Hk|[<-|[]]]; auto. rewrite dot_comm. apply KL; auto. }
  split.
  - intros D S. rewrite (HZ v S) in D. discriminate.
  - intros N. apply KS in KV. rewrite span_app_iff in KV by (auto; repeat constructor; auto). destruct KV as (a & b & Ha & Hb & ->).
    assert (W1 : wf n [l]) by (repeat constructor; auto). assert (La : List.length a = n) by (apply (span_length n H); auto). assert (Lb : List.length b = n) by (apply (span_length n [l]); auto).
    apply span_cons_iff in Hb; [|constructor|auto]. destruct Hb as [Hb|[_ Hb]].
    + exfalso. apply N. apply span_nil in Hb. rewrite Hb, (vxor_zero_r n) by auto. exact Ha.
    + apply span_nil in Hb. rewrite dot_vxor_r by (unfold vec in *; lia). rewrite (HZ a Ha). rewrite xorb_false_l. assert (EB : b = l); [|rewrite EB; exact DL].
      symmetry. apply (vxor_eq_zero n); auto. Qed.

Lemma sim_main sv c n m l times errors d : solver_ok sv -> layout_ok c n m -> 0 < n -> cc_L c = [l] -> orthogonal (nd_rows (cc_H c)) (nd_rows (cc_H c)) ->
  in_kernel n (nd_rows (cc_H c)) l -> (forall v, in_kernel n (nd_rows (cc_H c)) v <-> span n (nd_rows (cc_H c) ++ [l]) v) -> ~ span n (nd_rows (cc_H c)) l ->
  (forall v, nontrivial_logical n (nd_rows (cc_H c)) (nd_rows (cc_H c)) v -> d <= weight v) ->
  Forall (fun e => List.length e = n) errors -> errors <> [] ->
  exists r runs q w, simulate_error_rate (Some sv) c times errors = Ret r /\ map s_err runs = errors /\ Forall (sampled n d (nd_rows (cc_H c))) runs /\
    sr_distance r = cc_distance c /\ sr_rates r = [Some q] /\ (q * inject_Z (Z.of_nat (List.length errors)) == inject_Z (Z.of_nat (nbad runs)))%Q /\
    sr_minwts r = [w] /\ least_bad runs w /\ (w = (-1)%Z \/ (Z.of_nat d <= w)%Z) /\
    (sr_constr r * inject_Z (Z.of_nat (List.length errors)) == qsum (fun i => fst (times i)) (List.length errors))%Q /\
    (sr_solve r * inject_Z (Z.of_nat (List.length errors)) == qsum (fun i => snd (times i)) (List.length errors))%Q.
Proof. intros SV LO Hn EL O KL KS NL Hd FE NE. pose proof LO as (A0 & W & LH & _). set (H := nd_rows (cc_H c)) in *.
  destruct (sim_ok sv c n m l times SV LO EL Hn errors 0 0 (-1)%Z 0%Q 0%Q [] FE eq_refl) as (runs & w & ct & sl & E1 & E2 & E3 & E4); [left; split; reflexivity|intros s []|]. cbn [app] in *.
  unfold simulate_error_rate. rewrite (pre_st c n m LO), EL. cbn [List.length repeat]. rewrite E1.
  unfold vec in *. destruct (List.length errors) as [|N'] eqn:EN; [destruct errors; [congruence|discriminate]|].
  fold H in E3. assert (F : Forall (sampled n d H) runs).
  { rewrite Forall_forall in E3 |- *. intros s Hs. destruct (E3 s Hs) as (LS & B). split; [exact LS|].
    assert (Le : List.length (s_err s) = n) by (rewrite Forall_forall in FE; apply FE; rewrite <- E2; now apply in_map). destruct LS as (Ls & ES & ML).
    assert (LX : List.length (vxor (s_err s) (s_est s)) = n) by (now apply vxor_length').
    assert (Z0 : mulMV H (vxor (s_err s) (s_est s)) = vzero (List.length H)) by (rewrite (mulMV_vxor H n), ES by auto; apply vxor_self'; unfold mulMV; apply map_length).
    assert (K : in_kernel n H (vxor (s_err s) (s_est s))) by (apply in_kernel_mulMV; auto).
    assert (BI : s_bad s = true <-> ~ span n H (vxor (s_err s) (s_est s))) by (rewrite B; apply (one_logical n H l); auto). split; [exact BI|].
    intros Hw. destruct (s_bad s) eqn:EB; auto. exfalso. apply (proj1 BI eq_refl). apply (least_corrects n H (s_err s) (s_est s) (List.length H) d W Le Ls Z0 (ML _ Le eq_refl) Hd Hw). }
  destruct (sim_times (Some sv) c times errors 0 [0] [(-1)%Z] 0%Q 0%Q _ _ _ _ _ _ E1) as (T1 & T2); [reflexivity..|]. cbn [Nat.add] in T1, T2. unfold vec in *. rewrite EN in T1, T2.
  eexists. exists runs. cbn [map]. unfold np_div. cbn [Nat.eqb].
  eexists. exists w. split; [reflexivity|]. cbn [sr_distance sr_rates sr_minwts sr_constr sr_solve].
  split; [exact E2|]. split; [exact F|]. split; [reflexivity|]. split; [reflexivity|]. split.
  { field. intros K. unfold Qeq in K. cbn in K. lia. }
  split; [reflexivity|]. split; [exact E4|]. split; [|split; [exact T1|exact T2]].
  destruct E4 as [[-> _]|[(s & Hs & Bs & ->) _]]; [now left|right]. rewrite Forall_forall in F. destruct (F s Hs) as (LS & BI & _).
  assert (Le : List.length (s_err s) = n) by (rewrite Forall_forall in FE; apply FE; rewrite <- E2; now apply in_map). destruct LS as (Ls & ES & ML).
  assert (d <= wt s); [|lia]. apply Hd. split; [|now apply BI]. apply in_kernel_mulMV; [now apply vxor_length'|]. rewrite (mulMV_vxor H n), ES by auto. apply vxor_self'. unfold mulMV. apply map_length. Qed.

(** the one logical operator of a color code with k = 1 *)
Lemma color_logical L d n lay c : ldpc_ok L -> wf n (lay_H lay) -> ColorCode L d n lay = Ret c -> sc_n (css_stab (cc_css c)) = n -> sc_k (css_stab (cc_css c)) = 1%Z ->
  css_Hx (cc_css c) = cc_H c -> css_Hz (cc_css c) = cc_H c ->
  exists l, cc_L c = [l] /\ in_kernel n (nd_rows (cc_H c)) l /\ (forall v, in_kernel n (nd_rows (cc_H c)) v <-> span n (nd_rows (cc_H c) ++ [l]) v) /\ ~ span n (nd_rows (cc_H c)) l.
Proof. intros OL W E En Ek EX EZ. unfold ColorCode in E. destruct (CSSCode L d _ _ None None) as [cs|] eqn:EC; [|discriminate]. cbn [pbind] in E. injection E as E.
  assert (ECC : cc_css c = cs) by (rewrite <- E; reflexivity). assert (ELL : cc_L c = css_Lz cs) by (rewrite <- E; reflexivity).
  destruct (C12_logicals_complete L d (Some (mkNd n (lay_H lay))) (Some (mkNd n (lay_H lay))) None None cs OL W W EC) as (_ & _ & _ & _ & K1 & K2 & K3 & K4).
  rewrite ECC in *. rewrite En, EX, EZ in *. rewrite Ek in K4. rewrite ELL. destruct (css_Lz cs) as [|l [|l' ls]]; cbn [List.length] in K4; try lia. exists l. split; [reflexivity|].
  assert (KL : in_kernel n (nd_rows (cc_H c)) l) by (apply K1; now left). split; [exact KL|]. split; [exact K2|]. intros S. assert (Ll : List.length l = n) by apply KL.
  specialize (K3 [true] eq_refl). cbn [lincomb] in K3. rewrite (vxor_zero_r n) in K3 by auto. specialize (K3 S). discriminate. Qed.

(** ** C63 *)
(** Simulating a hexagonal color code of odd distance: every sampled error gets a lightest estimate; the reported rate is the
    fraction of samples whose residual is a logical operator, which never happens for errors below half the distance; the reported weight is -1
    if there was none and otherwise the least weight among them, which is at least the distance; the reported times are the means. *)
Theorem C63_hexagonal : forall sv L d data anc c times errors, solver_ok sv -> ldpc_ok L -> (3 <= d)%Z -> (d mod 2 = 1)%Z -> hex_enum d data anc ->
  HexagonalColorCode L d data anc = Ret c -> Forall (fun e => List.length e = List.length data) errors -> errors <> [] ->
  exists r runs q w, simulate_error_rate (Some sv) c times errors = Ret r /\ map s_err runs = errors /\
    Forall (sampled (List.length data) (Z.to_nat d) (nd_rows (cc_H c))) runs /\
    sr_distance r = d /\ sr_rates r = [Some q] /\ (q * inject_Z (Z.of_nat (List.length errors)) == inject_Z (Z.of_nat (nbad runs)))%Q /\
    sr_minwts r = [w] /\ least_bad runs w /\ (w = (-1)%Z \/ (d <= w)%Z) /\
    (sr_constr r * inject_Z (Z.of_nat (List.length errors)) == qsum (fun i => fst (times i)) (List.length errors))%Q /\
    (sr_solve r * inject_Z (Z.of_nat (List.length errors)) == qsum (fun i => snd (times i)) (List.length errors))%Q.
Proof. intros sv L d data anc c times errors SV OL Hd Ho E EC FE NE.
  destruct (C17_code L d data anc Hd Ho E) as (c' & EC' & P). rewrite EC in EC'. injection EC' as <-. cbv zeta in P.
  destruct P as (P1 & P2 & P3 & P4 & P5 & P6 & P7 & P8 & P9 & P10 & P11 & P12 & P13 & _).
  destruct (C17_adjacency L d data anc c Hd Ho E EC) as (A1 & A2 & A3 & A4 & _).
  assert (EH : cc_H c = mkNd (List.length data) (lay_H (hex_layout data anc)) /\ cc_distance c = d).
  { unfold HexagonalColorCode, ColorCode in EC. destruct (CSSCode _ _ _ _ _ _) in EC; [|discriminate]. cbn [pbind] in EC. injection EC as <-. split; reflexivity. }
  destruct EH as [EH ED].
  destruct (color_logical L d (List.length data) (hex_layout data anc) c OL) as (l & L1 & L2 & L3 & L4); auto; [rewrite EH in P4; exact P4|].
  assert (O : orthogonal (nd_rows (cc_H c)) (nd_rows (cc_H c))).
  { intros a b Ha Hb. apply (In_nth _ _ []) in Ha, Hb. destruct Ha as (i & Hi & <-). destruct Hb as (j & Hj & <-). auto. }
  destruct (sim_main sv c (List.length data) (List.length anc) l times errors (Z.to_nat d) SV) as (r & runs & q & w & X); auto.
  { unfold layout_ok. auto 10. }
  { lia. }
  { apply (C17_distance L d data anc c Hd Ho E EC). }
  exists r, runs, q, w. rewrite ED in X. destruct X as (X1 & X2 & X3 & X4 & X5 & X6 & X7 & X8 & X9 & X10). repeat (split; [assumption|]). split; [|exact X10]. destruct X9; [now left|right; lia]. Qed.
Print Assumptions C63_hexagonal.
Theorem C63_square_octagon : forall sv L d data sq oct c times errors, solver_ok sv -> ldpc_ok L -> (3 <= d)%Z -> (d mod 2 = 1)%Z -> so_enum d data sq oct ->
  SquareOctagonColorCode L d data sq oct = Ret c -> Forall (fun e => List.length e = List.length data) errors -> errors <> [] ->
  exists r runs q w, simulate_error_rate (Some sv) c times errors = Ret r /\ map s_err runs = errors /\
    Forall (sampled (List.length data) (Z.to_nat d) (nd_rows (cc_H c))) runs /\
    sr_distance r = d /\ sr_rates r = [Some q] /\ (q * inject_Z (Z.of_nat (List.length errors)) == inject_Z (Z.of_nat (nbad runs)))%Q /\
    sr_minwts r = [w] /\ least_bad runs w /\ (w = (-1)%Z \/ (d <= w)%Z) /\
    (sr_constr r * inject_Z (Z.of_nat (List.length errors)) == qsum (fun i => fst (times i)) (List.length errors))%Q /\
    (sr_solve r * inject_Z (Z.of_nat (List.length errors)) == qsum (fun i => snd (times i)) (List.length errors))%Q.
Proof. intros sv L d data sq oct c times errors SV OL Hd Ho E EC FE NE.
  destruct (C18_code L d data sq oct Hd Ho E) as (c' & EC' & P). rewrite EC in EC'. injection EC' as <-. cbv zeta in P.
  destruct (C18_adjacency L d data sq oct c Hd Ho E EC) as (A1 & A2 & A3 & A4 & _).
  destruct P as (P1 & P2 & P3 & P4 & P5 & P6 & P7 & P8 & P9 & P10 & P11 & P12 & P13 & P14 & P15 & P16 & _).
  assert (EH : exists lay, ColorCode L d (List.length data) lay = Ret c /\ cc_H c = mkNd (List.length data) (lay_H lay) /\ cc_distance c = d).
  { unfold SquareOctagonColorCode in EC. eexists. split; [exact EC|]. unfold ColorCode in EC. destruct (CSSCode _ _ _ _ _ _) in EC; [|discriminate]. cbn [pbind] in EC. injection EC as <-. split; reflexivity. }
  destruct EH as (lay & EC1 & EH & ED).
  destruct (color_logical L d (List.length data) lay c OL) as (l & L1 & L2 & L3 & L4); auto; [rewrite EH in P4; exact P4|].
  assert (O : orthogonal (nd_rows (cc_H c)) (nd_rows (cc_H c))).
  { intros a b Ha Hb. apply (In_nth _ _ []) in Ha, Hb. destruct Ha as (i & Hi & <-). destruct Hb as (j & Hj & <-). auto. }
  destruct (sim_main sv c (List.length data) (List.length (sq ++ oct)) l times errors (Z.to_nat d) SV) as (r & runs & q & w & X); auto.
  { unfold layout_ok. auto 10. }
  { lia. }
  { apply (C18_distance L d data sq oct c Hd Ho E EC). }
  exists r, runs, q, w. rewrite ED in X. destruct X as (X1 & X2 & X3 & X4 & X5 & X6 & X7 & X8 & X9 & X10). repeat (split; [assumption|]). split; [|exact X10]. destruct X9; [now left|right; lia]. Qed.
Print Assumptions C63_square_octagon.

(** An external solver is started but its answer is not read: no error is ever counted, whatever is sampled. *)
Lemma ext_solve c n m lights : layout_ok c n m -> List.length lights = m ->
  solve_path None lights (pre_state (lay_f2q (cc_lay c)) (lay_q2f (cc_lay c))) = (pre_state (lay_f2q (cc_lay c)) (lay_q2f (cc_lay c)), Ret []).
Proof. intros (A0 & W & LH & K1 & K2 & G & HF) LL. set (a := lay_f2q (cc_lay c)) in *. set (b := lay_q2f (cc_lay c)) in *.
  assert (LF : List.length a = m) by (rewrite <- (map_length fst), K2; apply seq_length).
  unfold solve_path, solve_external, mbind at 1 2. unfold mopt at 1. rewrite (complete_loop a b lights); auto using graph_lights_ok.
  intros j Hj. apply (graph_dfind a b j G). lia. Qed.
Lemma ext_loop c n m times : layout_ok c n m -> forall errors i le mw ct sl, Forall (fun e => List.length e = n) errors ->
  exists ct' sl', sim_loop None c times i errors le mw ct sl (pre_state (lay_f2q (cc_lay c)) (lay_q2f (cc_lay c))) = (pre_state (lay_f2q (cc_lay c)) (lay_q2f (cc_lay c)), Ret (le, mw, (ct', sl'))).
Proof. intros LO. induction errors as [|e errors IH]; intros i le mw ct sl FE; cbn [sim_loop]; [exists ct, sl; reflexivity|]. apply Forall_cons_iff in FE as [Le FE].
  unfold mbind at 1, mlift. unfold cc_get_syndrome, matvec. rewrite (proj1 LO), Le, Nat.eqb_refl. unfold mbind at 1. rewrite (ext_solve c n m) by (auto; unfold mulMV; rewrite map_length; apply LO).
  cbn [List.length]. replace (0 <? 0) with false by reflexivity. unfold mbind at 1, mret. cbn [fst snd]. apply IH. exact FE. Qed.
Theorem C63_external_solver_refuted : forall c n m times errors, layout_ok c n m -> Forall (fun e => List.length e = n) errors -> errors <> [] ->
  exists r, simulate_error_rate None c times errors = Ret r /\ sr_minwts r = repeat (-1)%Z (List.length (cc_L c)) /\
    List.length (sr_rates r) = List.length (cc_L c) /\ forall x, In x (sr_rates r) -> exists q, x = Some q /\ (q == 0)%Q.
Proof. intros c n m times errors LO FE NE. unfold simulate_error_rate. rewrite (pre_st c n m LO).
  destruct (ext_loop c n m times LO errors 0 (repeat 0 (List.length (cc_L c))) (repeat (-1)%Z (List.length (cc_L c))) 0%Q 0%Q FE) as (ct & sl & ->).
  eexists. split; [reflexivity|]. cbn [sr_minwts sr_rates]. split; [reflexivity|]. split; [now rewrite map_length, repeat_length|].
  intros x Hx. apply in_map_iff in Hx as (y & <- & Hy). apply repeat_spec in Hy. subst y. unfold np_div. destruct errors as [|e errors]; [congruence|]. cbn [List.length Nat.eqb]. eexists. split; [reflexivity|].
  unfold Qdiv. change (inject_Z (Z.of_nat 0)) with 0%Q. ring. Qed.
Print Assumptions C63_external_solver_refuted.
(** no samples: the rates are undefined, the weights -1 *)
Theorem C63_no_samples : forall path c times r, simulate_error_rate path c times [] = Ret r ->
  sr_rates r = repeat None (List.length (cc_L c)) /\ sr_minwts r = repeat (-1)%Z (List.length (cc_L c)).
Proof. intros path c times r E. unfold simulate_error_rate in E. destruct (preconstruct_z3_instance _) as [st [u|]]; [|discriminate]. cbn [sim_loop] in E. unfold mret in E. cbn [List.length] in E. injection E as <-.
  cbn [sr_rates sr_minwts]. split; [|reflexivity]. induction (List.length (cc_L c)) as [|k IH]; [reflexivity|]. cbn [repeat map]. now rewrite IH. Qed.
Print Assumptions C63_no_samples.
(** the hexagonal code of an even distance has no logical operator: nothing is reported *)
Theorem C63_even_distance_refuted : forall L d data anc, ldpc_ok L -> (2 <= d)%Z -> (d mod 2 = 0)%Z -> hex_enum d data anc ->
  exists c, HexagonalColorCode L d data anc = Ret c /\ forall path times errors r, simulate_error_rate path c times errors = Ret r -> sr_rates r = [] /\ sr_minwts r = [].
Proof. intros L d data anc OL Hd He E. destruct (C17_even_distance_no_logical L d data anc Hd He E) as (c & EC & A1 & A2 & A3 & A4 & A5 & A6 & A7). exists c. split; [exact EC|].
  assert (EL : cc_L c = []).
  { unfold HexagonalColorCode, ColorCode in EC. destruct (CSSCode L d _ _ None None) as [cs|] eqn:ES; [|discriminate]. cbn [pbind] in EC. injection EC as <-. cbn [cc_L cc_css] in *.
    assert (W : wf (List.length data) (lay_H (hex_layout data anc))) by (rewrite hex_layout_eq, flayout_H by (apply (hex_data_nodup d data anc E)); apply frows_wf).
    destruct (C12_logicals_complete L d (Some (mkNd (List.length data) (lay_H (hex_layout data anc)))) (Some (mkNd (List.length data) (lay_H (hex_layout data anc)))) None None cs OL W W ES) as (_ & _ & _ & _ & _ & _ & _ & K4).
    rewrite A5 in K4. destruct (css_Lz cs); [reflexivity|cbn in K4; lia]. }
  intros path times errors r ER. unfold simulate_error_rate in ER. rewrite EL in ER. destruct (preconstruct_z3_instance _) as [st [u|]]; [|discriminate]. cbn [List.length repeat] in ER.
  assert (G : forall errors i ct sl s s' le mw q, sim_loop path c times i errors [] [] ct sl s = (s', Ret (le, mw, q)) -> le = [] /\ mw = []).
  { clear ER errors. induction errors as [|e errors IH]; intros i ct sl s s' le mw q K; cbn [sim_loop] in K; [injection K as <- <- <- <-; auto|].
    unfold mbind at 1 in K. destruct (mlift (cc_get_syndrome c e) s) as [s1 [li|]]; [|discriminate]. unfold mbind at 1 in K. destruct (solve_path path li s1) as [s2 [es|]]; [|discriminate].
    unfold mbind at 1 in K. rewrite EL in K. destruct (0 <? List.length es); [destruct (List.length es =? List.length e)|]; unfold mret, mlift in K; try discriminate; cbn [logical_loop fst snd] in K; eauto. }
  destruct (sim_loop path c times 0 errors [] [] 0 0 st) as [s' [[[le mw] [ct sol]]|]] eqn:ES; [|discriminate]. destruct (G _ _ _ _ _ _ _ _ _ ES) as [-> ->]. injection ER as <-. split; reflexivity. Qed.
Print Assumptions C63_even_distance_refuted.
(** code_from_string knows the two lattices and raises ValueError otherwise *)
Theorem C63_code_from_string : forall L lattice d hex anc data sq oct,
  code_from_string L "hexagon" d hex data sq oct anc = HexagonalColorCode L d hex anc /\
  code_from_string L "square_octagon" d hex data sq oct anc = SquareOctagonColorCode L d data sq oct /\
  (lattice <> "hexagon"%string -> lattice <> "square_octagon"%string -> code_from_string L lattice d hex data sq oct anc = Raise ValueError).
Proof. intros L lattice d hex anc data sq oct. split; [reflexivity|]. split; [reflexivity|]. intros A B. unfold code_from_string. apply String.eqb_neq in A, B. now rewrite A, B. Qed.
Print Assumptions C63_code_from_string.
Lemma hex_rows L d data anc c : hex_enum d data anc -> HexagonalColorCode L d data anc = Ret c -> nd_rows (cc_H c) = map (frow data) (map hex_nb anc).
Proof. intros E EC. unfold HexagonalColorCode, ColorCode in EC. rewrite hex_layout_eq in EC. destruct (CSSCode _ _ _ _ _ _) in EC; [|discriminate].
  injection EC as <-. cbn [cc_H nd_rows]. apply flayout_H. apply (hex_data_nodup d data anc E). Qed.
(** non-vacuity: on the distance-3 code a logical operator and a single flip are sampled; one of two samples fails, with weight 3 *)
Lemma weight_none (v : vec) : weight v = 0 -> v = vzero (List.length v).
Proof. induction v as [|[] v IH]; cbn; intros E; [reflexivity|discriminate|]. unfold vzero in *. cbn [repeat]. f_equal. auto. Qed.
Example C63_nonvacuous : exists sv c r, solver_ok sv /\ HexagonalColorCode ldpc_ref 3 (fst (hex_add_qubits 3)) (snd (hex_add_qubits 3)) = Ret c /\
  simulate_error_rate (Some sv) c (fun i => (inject_Z (Z.of_nat i), 1%Q)) [bdry (fst (hex_add_qubits 3)); unitv 7 2] = Ret r /\ sr_minwts r = [3%Z] /\
  exists q, sr_rates r = [Some q] /\ (q == 1 # 2)%Q.
Proof. destruct C22_solver_exists as (sv & SV). exists sv. set (data := fst (hex_add_qubits 3)). set (anc := snd (hex_add_qubits 3)).
  assert (EN : hex_enum 3 data anc) by (split; apply Permutation_refl).
  destruct (C17_code ldpc_ref 3 data anc ltac:(lia) eq_refl EN) as (c & EC & P). exists c. cbv zeta in P. destruct P as (_ & _ & P3 & P4 & _).
  destruct (C63_hexagonal sv ldpc_ref 3 data anc c (fun i => (inject_Z (Z.of_nat i), 1%Q)) [bdry data; unitv 7 2] SV ldpc_ref_ok ltac:(lia) eq_refl EN EC) as (r & runs & q & w & X1 & X2 & X3 & _ & X5 & X6 & X7 & X8 & X9 & _); [repeat constructor|discriminate|].
  exists r. split; [exact SV|]. split; [exact EC|]. split; [exact X1|].
  destruct runs as [|s1 [|s2 [|]]]; try discriminate. injection X2 as E1 E2. change (s_err s1 = bdry data) in E1. change (s_err s2 = unitv 7 2) in E2. apply Forall_cons_iff in X3 as [S1 X3]. apply Forall_cons_iff in X3 as [S2 _].
  pose proof (hex_rows ldpc_ref 3 data anc c EN EC) as EH.
  assert (B1 : s_bad s1 = true /\ wt s1 = 3).
  { destruct S1 as ((L1 & Es & M) & BI & _). rewrite E1 in Es, M, BI.
    assert (KB : in_kernel (List.length data) (nd_rows (cc_H c)) (bdry data)) by (rewrite EH; exact (bdry_kernel 3 data anc EN eq_refl ltac:(lia))).
    assert (Z0 : mulMV (nd_rows (cc_H c)) (bdry data) = vzero (List.length (nd_rows (cc_H c)))) by (apply (in_kernel_mulMV (List.length data)); [apply KB|exact KB]).
    assert (W0 : weight (s_est s1) = 0).
    { specialize (M (vzero (List.length data)) (vzero_length _)). rewrite Z0 in M.
      assert (ZZ : mulMV (nd_rows (cc_H c)) (vzero (List.length data)) = vzero (List.length (nd_rows (cc_H c)))).
      { apply (in_kernel_mulMV (List.length data)); [apply vzero_length|]. split; [apply vzero_length|]. intros; apply dot_zero_r. }
      specialize (M ZZ). replace (weight (vzero (List.length data))) with 0 in M by reflexivity. lia. }
    apply weight_none in W0. rewrite L1 in W0. unfold wt. rewrite W0, (vxor_zero_r (List.length data)) in BI by reflexivity. rewrite E1, W0, (vxor_zero_r (List.length data)) by reflexivity. split; [|reflexivity].
    apply BI. rewrite EH. exact (bdry_not_stab 3 data anc EN eq_refl ltac:(lia)). }
  assert (B2 : s_bad s2 = false) by (apply S2; rewrite E2; vm_compute; lia).
  destruct B1 as [B1 W1]. split.
  - rewrite X7. f_equal. destruct X8 as [[_ N]|[(s & Hs & Bs & ->) _]]; [unfold nbad in N; cbn [filter] in N; rewrite B1 in N; discriminate|].
    destruct Hs as [<-|[<-|[]]]; [now rewrite W1|congruence].
  - exists q. split; [exact X5|]. unfold nbad in X6. cbn [filter] in X6. rewrite B1, B2 in X6. cbn [List.length] in X6. change (inject_Z (Z.of_nat 2)) with (2 # 1)%Q in X6. change (inject_Z (Z.of_nat 1)) with 1%Q in X6.
    rewrite <- (Qdiv_mult_l q (2 # 1)) by discriminate. rewrite X6. reflexivity. Qed.
