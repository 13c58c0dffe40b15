(** * VerifProofs4: fault sets of prepared codes, layers of verification stabilizers *)
From Verif Require Export VerifModel2 FaultProofs2 SearchProofs CssProofs.
Local Open Scope nat_scope.

(** ** the caches fill from below *)
Definition down (k : cache) : Prop := forall j F, nth_error (k_sets k) j = Some (Some F) -> forall i, 1 <= i <= j -> exists G, nth_error (k_sets k) i = Some (Some G).
Lemma cache0_down s : down (cache0 s).
Proof. intros j F H. exfalso. unfold cache0 in H. cbn [k_sets] in H. apply nth_error_In in H. apply repeat_spec in H. discriminate. Qed.
Section Down.
Variables (lin : list (nat * nat) -> list (nat * nat)) (opt : cl_solver) (s : spc) (x : bool).
Lemma compute_down j : forall reduce k k' F, down k -> compute_fault_set lin opt s x reduce j k = Ret (k', F) -> down k' /\ nth_error (k_sets k') j = Some (Some F) /\ 1 <= j.
Proof. induction j as [|pred IH]; intros reduce k k' F D; cbn [compute_fault_set]; [discriminate|].
  destruct (nth_error (k_sets k) (S pred)) as [[Fs|]|] eqn:ES; try discriminate.
  - intros E. apply ret_pair in E as [<- <-]. split; auto. split; auto. lia.
  - assert (LJ : S pred < length (k_sets k)) by (apply nth_error_Some; congruence).
    intros H. match type of H with pbind ?A ?B = _ => destruct A as [[k1 U]|] eqn:EA; [cbn [pbind fst snd] in H|discriminate] end.
    apply ret_pair in H as [<- <-]. unfold down. cbn [k_sets].
    assert (K1 : down k1 /\ S pred < length (k_sets k1) /\ (pred = 0 \/ exists G, nth_error (k_sets k1) pred = Some (Some G))).
    { destruct pred as [|pred].
      - destruct (cnots_of _) as [nodes|]; [cbn [pbind] in EA|discriminate]. destruct (lin nodes); [discriminate|]. apply ret_pair in EA as [<- _]. cbn [k_sets]. auto.
      - destruct (compute_fault_set lin opt s x reduce (S pred) k) as [[k2 F2]|] eqn:EC; [cbn [pbind fst snd] in EA|discriminate]. destruct (IH _ _ _ _ D EC) as (D2 & E2 & _).
        destruct (nth_error (k_unred k2) (S pred)) as [[f|]|]; try discriminate. destruct (nth_error (k_unred k2) 1) as [[g|]|]; try discriminate. apply ret_pair in EA as [<- _]. cbn [k_sets]. split; auto. split; [|right; eauto].
        assert (LEN : forall j r k k' F, compute_fault_set lin opt s x r j k = Ret (k', F) -> length (k_sets k') = length (k_sets k)).
        { clear. induction j as [|pred IH]; intros r k k' F; cbn [compute_fault_set]; [discriminate|]. destruct (nth_error (k_sets k) (S pred)) as [[Fs|]|]; try discriminate.
          - intros E. apply ret_pair in E as [<- _]. auto.
          - intros H. match type of H with pbind ?A ?B = _ => destruct A as [[k1 U]|] eqn:EA; [cbn [pbind fst snd] in H|discriminate] end. apply ret_pair in H as [<- _]. cbn [k_sets]. rewrite set_nth_length.
            destruct pred as [|pred].
            + destruct (cnots_of _) as [nodes|]; [cbn [pbind] in EA|discriminate]. destruct (lin nodes); [discriminate|]. apply ret_pair in EA as [<- _]. auto.
            + destruct (compute_fault_set lin opt s x r (S pred) k) as [[k2 F2]|] eqn:EC; [cbn [pbind fst snd] in EA|discriminate]. destruct (nth_error (k_unred k2) (S pred)) as [[f|]|]; try discriminate. destruct (nth_error (k_unred k2) 1) as [[g|]|]; try discriminate.
              apply ret_pair in EA as [<- _]. cbn [k_sets]. eauto. }
        rewrite (LEN _ _ _ _ _ EC). auto. }
    destruct K1 as (D1 & L1 & P). split; [|split; [rewrite nth_error_set by auto; now rewrite Nat.eqb_refl|lia]].
    intros j F. rewrite nth_error_set by auto. intros H i Hi. rewrite nth_error_set by auto. destruct (i =? S pred) eqn:EI; eauto. apply Nat.eqb_neq in EI. destruct (j =? S pred) eqn:EJ; [|eapply D1; eauto].
    apply Nat.eqb_eq in EJ. subst j. destruct P as [-> |(G & HG)]; [lia|]. apply (D1 pred G HG). lia. Qed.
End Down.

(** ** a prepared code: what the checks of a StatePrepCircuit built from a CSS code satisfy *)
Definition spc_ok (s : spc) : Prop :=
  wf (sp_n s) (sp_xc s) /\ wf (sp_n s) (sp_zc s) /\ (0 < sp_d s)%Z /\ (sp_d s <= sp_dx s)%Z /\ (sp_d s <= sp_dz s)%Z /\
  (forall v, in_kernel (sp_n s) (sp_zc s) v <-> span (sp_n s) (sp_xc s) v) /\ (forall v, in_kernel (sp_n s) (sp_xc s) v <-> span (sp_n s) (sp_zc s) v).
Lemma kernel_swap n A B : wf n A -> wf n B -> (forall v, in_kernel n A v <-> span n B v) -> forall v, in_kernel n B v <-> span n A v.
Proof. intros WA WB H v. split.
  - intros [L K]. apply (proj2 (span_orth n A v WA L)). intros y Hy. apply H in Hy. rewrite dot_comm. revert Hy. rewrite <- (dot_comm v). apply (dot_span_zero n B v WB). intros r Hr. rewrite dot_comm. auto.
  - intros HS. split; [exact (span_length n A v WA HS)|]. intros r Hr. assert (K : in_kernel n A r) by (apply H, span_in; auto). rewrite dot_comm. rewrite dot_comm. revert HS. apply (dot_span_zero n A r WA). intros q Hq. rewrite dot_comm. now apply K. Qed.
Lemma logical_kernel L n m1 m2 : ldpc_ok L -> wf n m1 -> wf n m2 -> orthogonal m1 m2 ->
  wf n (compute_logical L n m1 m2 ++ m2) /\ forall v, in_kernel n m1 v <-> span n (compute_logical L n m1 m2 ++ m2) v.
Proof. intros HL W1 W2 O. pose proof (orthogonal_kernel n m1 m2 W2 O) as OK. destruct (compute_logical_spec L n m1 m2 HL W1 W2 OK) as (WL & KL & (WB & _ & SB) & _).
  set (Lg := compute_logical L n m1 m2) in *. destruct HL as (HN & HB & _). destruct (HN n m1 W1) as (_ & _ & SK). destruct (HB n m2 W2) as (WI & _ & SI). assert (WLM : wf n (Lg ++ m2)) by (apply wf_app; auto). split; auto.
  intros v. rewrite <- SK, <- SB. split; apply span_incl; auto.
  - intros r Hr. apply in_app_iff in Hr as [Hr|Hr]; [|apply span_in; auto; apply in_app_iff; auto]. assert (S2 : span n m2 r) by (apply SI; now apply span_in).
    revert S2. apply span_incl_in; auto. intros q Hq. apply in_app_iff. auto.
  - intros r Hr. apply in_app_iff in Hr as [Hr|Hr]; [apply span_in; auto; apply in_app_iff; auto|]. apply span_app_l; auto. apply SI. now apply span_in. Qed.
Lemma StatePrepCircuit_ok L distance Hx Hz xd zd c circ zs det : opt_ok Hx -> opt_ok Hz -> ldpc_ok L -> CSSCode L distance Hx Hz xd zd = Ret c ->
  spc_ok (StatePrepCircuit (sc_n (css_stab c)) circ c zs det).
Proof. intros OX OZ HL HC. assert (CI : css_input distance Hx Hz xd zd) by (apply (CSSCode_iff L); eauto). destruct CI as (_ & _ & _ & _ & DP & DX & DZ).
  destruct (CSSCode_inv L distance Hx Hz xd zd c OX OZ HC) as ((EX & EZ & WX & WZ & O & ELx & ELz & En & _ & _) & ED & EDX & EDZ).
  set (n := nd_cols (hx_of Hx Hz)) in *. set (hx := nd_rows (hx_of Hx Hz)) in *. set (hz := nd_rows (hz_of Hx Hz)) in *.
  unfold spc_ok, StatePrepCircuit. cbn [sp_n sp_xc sp_zc sp_d sp_dx sp_dz]. rewrite En, EX, EZ, ELx, ELz, ED, EDX, EDZ. cbn [nd_rows].
  assert (DD : (0 < distance)%Z /\ (distance <= match xd with Some x => x | None => distance end)%Z /\ (distance <= match zd with Some x => x | None => distance end)%Z).
  { split; auto. split; [destruct xd; auto; lia|destruct zd; auto; lia]. }
  destruct (logical_kernel L n hx hz HL WX WZ O) as [WLZ KZ]. destruct (logical_kernel L n hz hx HL WZ WX (orthogonal_sym _ _ O)) as [WLX KX].
  destruct DD as (D1 & D2 & D3). destruct zs.
  - split; [exact WX|split; [exact WLZ|split; [exact D1|split; [exact D2|split; [exact D3|split; [|exact KZ]]]]]]. apply (kernel_swap n hx (compute_logical L n hx hz ++ hz)); auto.
  - split; [exact WLX|split; [exact WZ|split; [exact D1|split; [exact D2|split; [exact D3|split; [exact KX|]]]]]]. apply (kernel_swap n hz (compute_logical L n hz hx ++ hx)); auto. Qed.
Lemma max_weight_pos s x : spc_ok s -> 1 <= max_weight s x.
Proof. intros (_ & _ & D & DX & DZ & _). unfold max_weight. set (de := if x then sp_dx s else sp_dz s). assert (H : (sp_d s <= de)%Z) by (unfold de; destruct x; auto).
  assert (((sp_d s - 1) / 2 <= (de - 1) / 2)%Z) by (apply Z.div_le_mono; lia). set (a := Z.max ((de - 1) / 2) 1). set (b := Z.max ((sp_d s - 1) / 2) 1). assert (1 <= b <= a)%Z by lia.
  assert (1 <= a / b)%Z by (apply Z.div_le_lower_bound; lia). lia. Qed.
Lemma stabs_wf s x : spc_ok s -> wf (sp_n s) (stabs_of s x).
Proof. intros (A & B & _). unfold stabs_of. destruct x; auto. Qed.
Lemma orth_wf s x : spc_ok s -> wf (sp_n s) (orth_checks s x).
Proof. intros (A & B & _). unfold orth_checks. destruct x; auto. Qed.
(** an error that is not a stabilizer of the prepared state is noticed by some check *)
Lemma detectable s x f : spc_ok s -> length f = sp_n s -> ~ span (sp_n s) (stabs_of s x) f -> exists c, In c (orth_checks s x) /\ dot c f = true.
Proof. intros (_ & _ & _ & _ & _ & KZ & KX) L NS. destruct (existsb (fun c => dot c f) (orth_checks s x)) eqn:E; [apply existsb_exists in E; auto|]. exfalso. apply NS.
  assert (K : in_kernel (sp_n s) (orth_checks s x) f).
  { split; auto. intros r Hr. destruct (dot r f) eqn:D; auto. assert (T : existsb (fun c => dot c f) (orth_checks s x) = true) by (apply existsb_exists; eauto). congruence. }
  unfold orth_checks, stabs_of in *. destruct x; [now apply KZ|now apply KX]. Qed.

(** ** fault sets *)
Section Sets.
Variables (lin : list (nat * nat) -> list (nat * nat)) (opt : cl_solver) (s : spc) (nodes : list (nat * nat)).
Hypotheses (OK : optimizer_ok 1 opt) (SO : spc_ok s) (EN : cnots_of (drop_front [] (sp_circ s)) = Ret nodes) (NL : lin nodes <> []).
Notation inv x := (cache_inv lin opt s x nodes).
Definition kinv2 (kk : cache * cache) : Prop := (cache_inv lin s true nodes (fst kk) /\ down (fst kk)) /\ (cache_inv lin s false nodes (snd kk) /\ down (snd kk)).
Lemma kinv2_init : kinv2 (cache0 s, cache0 s).
Proof. split; (split; [apply cache0_inv|apply cache0_down]). Qed.
Lemma compute_sets_ok reduce kk : kinv2 kk -> 1 <= max_errors s -> exists kk', compute_fault_sets lin opt s reduce kk = Ret kk' /\ kinv2 kk' /\
  forall x j, 1 <= j <= max_errors s -> exists F, nth_error (k_sets (cache_of x kk')) j = Some (Some F) /\ fault_ok s x (ksum (sp_n s) (base lin s x nodes) j) j F.
Proof. intros ((IX & DX) & (IZ & DZ)) M. unfold compute_fault_sets.
  pose proof (max_weight_pos s true SO) as MX. pose proof (max_weight_pos s false SO) as MZ. pose proof (stabs_wf s true SO) as WX. pose proof (stabs_wf s false SO) as WZ.
  destruct (compute_total lin opt s true nodes OK WX MX EN (max_errors s) reduce (fst kk) NL IX ltac:(lia)) as ([k1 F1] & E1). rewrite E1. cbn [pbind fst].
  destruct (compute_total lin opt s false nodes OK WZ MZ EN (max_errors s) reduce (snd kk) NL IZ ltac:(lia)) as ([k2 F2] & E2). rewrite E2. cbn [pbind fst].
  destruct (compute_inv lin opt s true nodes OK WX MX EN _ _ _ _ _ IX E1) as (I1 & _ & S1 & _). destruct (compute_inv lin opt s false nodes OK WZ MZ EN _ _ _ _ _ IZ E2) as (I2 & _ & S2 & _).
  destruct (compute_down lin opt s true _ _ _ _ _ DX E1) as (D1 & _ & _). destruct (compute_down lin opt s false _ _ _ _ _ DZ E2) as (D2 & _ & _).
  eexists. split; [reflexivity|]. split; [split; split; auto|]. intros x j Hj. destruct x; cbn [cache_of fst snd].
  - destruct (D1 _ _ S1 j Hj) as (F & HF). exists F. split; auto. apply I1; auto.
  - destruct (D2 _ _ S2 j Hj) as (F & HF). exists F. split; auto. apply I2; auto. Qed.
Definition all_base (x : bool) (additional : option mat) (b : vec) : Prop := base lin s x nodes b \/ exists l, additional = Some l /\ In b l.
Lemma sets_ok x additional kk : kinv2 kk -> 1 <= max_errors s -> (forall l, additional = Some l -> wf (sp_n s) l) ->
  exists kk' sets, fault_sets_for lin opt s x additional kk = Ret (kk', sets) /\ kinv2 kk' /\
  forall j, 1 <= j <= max_errors s -> exists F, nth_error sets j = Some (Some F) /\ fault_ok s x (ksum (sp_n s) (all_base x additional) j) j F.
Proof. intros I M WA. unfold fault_sets_for. destruct (compute_sets_ok true kk I M) as (k1 & E1 & I1 & H1). rewrite E1. cbn [pbind].
  assert (EXT : forall (P Q : vec -> Prop) j F, (forall e, P e <-> Q e) -> fault_ok s x P j F -> fault_ok s x Q j F).
  { intros P Q j F PQ [A B]. split.
    - intros f Hf. destruct (A f Hf) as (A1 & A2 & (e & A3 & A4) & A5). repeat split; auto. exists e. split; auto. now apply PQ.
    - intros e He. apply B. now apply PQ. }
  destruct additional as [l|].
  - destruct (compute_sets_ok true k1 I1 M) as (k2 & E2 & I2 & H2). rewrite E2. cbn [pbind]. destruct l as [|a0 l0] eqn:EL.
    + unfold combine_faults. cbn [pbind]. eexists _, _. split; [reflexivity|]. split; auto. intros j Hj. destruct (H2 x j Hj) as (F & EF & FO). exists F. split; auto.
      revert FO. apply EXT. intros e. apply ksum_ext. intros b. unfold all_base. split; auto. intros [Hb|(l1 & [= <-] & [])]. auto.
    + rewrite <- EL in *. assert (CI : cache_inv lin s x nodes (cache_of x k2)) by (destruct I2 as ((? & _) & (? & _)); destruct x; auto).
      destruct (combine_ok lin opt s x nodes OK (stabs_wf s x SO) (max_weight_pos s x SO) l (cache_of x k2)) as (sets & ES & HS); auto.
      * rewrite EL. discriminate.
      * intros j Hj. destruct (H2 x j Hj) as (F & EF & _). eauto.
      * rewrite ES. cbn [pbind]. eexists _, _. split; [reflexivity|]. split; auto. intros j Hj. destruct (HS j Hj) as (F & EF & FO). exists F. split; auto. revert FO. apply EXT. intros e. apply ksum_ext. intros b. unfold all_base.
        split; (intros [Hb|Hb]; [left; auto|right]); eauto. destruct Hb as (l' & [= <-] & Hb). auto.
  - eexists _, _. split; [reflexivity|]. split; auto. intros j Hj. destruct (H1 x j Hj) as (F & EF & FO). exists F. split; auto. revert FO. apply EXT. intros e. apply ksum_ext. intros b. unfold all_base. split; auto. intros [Hb|(l & [=] & _)]. auto. Qed.
End Sets.
