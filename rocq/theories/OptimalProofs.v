(** * OptimalProofs: how good the results of gate_optimal_verification_stabilizers are *)
From Verif Require Import SearchProofs VerifProofs6.
Local Open Scope Z_scope.

Section S.
Context {A : Type} (w : world A).
(** the first parameter that yields something; the one before it - at least half as great - yielded nothing *)
Lemma inner_first fuel : forall k cur mx t k' a q, 1 <= cur <= mx -> inner_search fuel w k cur mx t = Done (k', Some (a, q)) ->
  cur <= q <= mx /\ (exists k0, yields w k0 q t a) /\ (q = cur \/ exists p k1, q <= 2 * p /\ cur <= p < q /\ nothing w k1 p t).
Proof. induction fuel as [|fuel IHf]; intros k cur mx t k' a q R; cbn [inner_search]; (destruct (Z.ltb_spec mx cur); [lia|]); [discriminate|].
  destruct (run_cases w k cur t) as [(E & N)|[(E & N)|[(b & E & Y)|(E & C)]]]; rewrite E; try discriminate.
  - destruct (Z.eqb_spec cur mx); [discriminate|]. intros HH. apply IHf in HH as (R1 & Y & [Q|(p & k1 & Q1 & Q2 & N1)]); try lia; (split; [lia|]; split; [auto|]; right); [exists cur, k; split; [lia|]; split; [lia|auto]|exists p, k1; split; [lia|]; split; [lia|auto]].
  - destruct (Z.eqb_spec cur mx); [discriminate|]. intros HH. apply IHf in HH as (R1 & Y & [Q|(p & k1 & Q1 & Q2 & N1)]); try lia; (split; [lia|]; split; [auto|]; right); [exists cur, k; split; [lia|]; split; [lia|auto]|exists p, k1; split; [lia|]; split; [lia|auto]].
  - intros [= <- <- <-]. split; [lia|]. split; [eauto|auto]. Qed.
Lemma inner_none fuel : forall k cur mx t k', 1 <= cur <= mx -> inner_search fuel w k cur mx t = Done (k', None) -> exists k1, nothing w k1 mx t.
Proof. induction fuel as [|fuel IHf]; intros k cur mx t k' R; cbn [inner_search]; (destruct (Z.ltb_spec mx cur); [lia|]); [discriminate|].
  destruct (run_cases w k cur t) as [(E & N)|[(E & N)|[(b & E & Y)|(E & C)]]]; rewrite E; try discriminate.
  - destruct (Z.eqb_spec cur mx) as [Q|]; [intros _; subst; eauto|]. apply IHf. lia.
  - destruct (Z.eqb_spec cur mx) as [Q|]; [intros _; subst; eauto|]. apply IHf. lia. Qed.
Lemma search_first fuel : forall k mn mx t mt k' a q, 1 <= mn <= mx -> iterative_search_with_timeout fuel w k mn mx t mt = Done (k', (Some a, q)) ->
  mn <= q <= mx /\ (exists k0 t', yields w k0 q t' a) /\ (q = mn \/ exists p k1 t', q <= 2 * p /\ mn <= p < q /\ nothing w k1 p t').
Proof. induction fuel as [|fuel IHf]; intros k mn mx t mt k' a q R; cbn [iterative_search_with_timeout]; destruct (mt <? t); try discriminate.
  destruct (inner_search (S fuel) w k mn mx t) as [[k1 [[b p]|]]| |] eqn:E; try discriminate; [|apply IHf; auto]. intros [= <- <- <-].
  apply inner_first in E as (R1 & (k0 & Y) & [Q|(p' & k2 & Q1 & Q2 & N)]); auto; (split; [lia|]; split; [eauto|]); [auto|right; exists p', k2, t; auto]. Qed.
Lemma search_none fuel : forall k mn mx t mt k' q, 1 <= mn <= mx -> t <= mt -> iterative_search_with_timeout fuel w k mn mx t mt = Done (k', (None, q)) -> exists k1 t', nothing w k1 mx t'.
Proof. destruct fuel as [|fuel]; intros k mn mx t mt k' q R T; cbn [iterative_search_with_timeout]; (destruct (Z.ltb_spec mt t); [lia|]); [discriminate|].
  destruct (inner_search (S fuel) w k mn mx t) as [[k1 [[b p]|]]| |] eqn:E; try discriminate. intros _. apply inner_none in E as (k2 & N); eauto. Qed.
Lemma descend_final fuel : forall k best cur mt k' a q, descend fuel w k (Some 0) best cur mt = Done (k', (a, q)) ->
  q <= cur /\ ((a = best /\ q = cur) \/ exists k0, yields w k0 q mt a) /\ (q - 1 <= 0 \/ exists k1, nothing w k1 (q - 1) mt) /\ (1 <= cur -> 1 <= q).
Proof. induction fuel as [|fuel IHf]; intros k best cur mt k' a q; cbn [descend]; destruct (Z.leb_spec (cur - 1) 0) as [L|L]; try discriminate.
  - intros [= <- <- <-]. split; [lia|]. split; auto.
  - intros [= <- <- <-]. split; [lia|]. split; auto.
  - destruct (run_cases w k (cur - 1) mt) as [(E & N)|[(E & N)|[(b & E & Y)|(E & C)]]]; rewrite E; try discriminate.
    + intros [= <- <- <-]. split; [lia|]. split; [auto|]. split; [eauto|auto].
    + intros [= <- <- <-]. split; [lia|]. split; [auto|]. split; [eauto|auto].
    + intros H. apply IHf in H as (R1 & Y1 & N1 & P1). split; [lia|]. split; [|split; [auto|intros; apply P1; lia]]. right. destruct Y1 as [[-> ->]|Y1]; eauto. Qed.
Hypothesis NC : forall k p e, w_fun w k p <> Raise e.
Lemma descend_total mt : forall c k best cur, (Z.to_nat cur <= c)%nat -> exists r, forall fuel, (c <= fuel)%nat -> descend fuel w k (Some 0) best cur mt = Done r.
Proof. induction c as [|c IHc]; intros k best cur L.
  - exists (k, (best, cur)). intros [|fuel] _; cbn [descend]; (destruct (Z.leb_spec (cur - 1) 0); [auto|lia]).
  - destruct (Z.leb_spec (cur - 1) 0) as [D|D].
    + exists (k, (best, cur)). intros [|fuel] _; cbn [descend]; (destruct (Z.leb_spec (cur - 1) 0); [auto|lia]).
    + destruct (run_cases w k (cur - 1) mt) as [(E & N)|[(E & N)|[(b & E & Y)|(E & (_ & e & C))]]].
      * exists (S k, (best, cur)). intros [|fuel] Hf; [lia|]. cbn [descend]. destruct (Z.leb_spec (cur - 1) 0); [lia|]. now rewrite E.
      * exists (S k, (best, cur)). intros [|fuel] Hf; [lia|]. cbn [descend]. destruct (Z.leb_spec (cur - 1) 0); [lia|]. now rewrite E.
      * destruct (IHc (S k) b (cur - 1)) as (r & H); [lia|]. exists r. intros [|fuel] Hf; [lia|]. cbn [descend]. destruct (Z.leb_spec (cur - 1) 0); [lia|]. rewrite E. apply H. lia.
      * now apply NC in C. Qed.
Lemma search_total k mn mx t mt : 1 <= mn <= mx -> 1 <= t -> exists r F, forall fuel, (F <= fuel)%nat -> iterative_search_with_timeout fuel w k mn mx t mt = Done r.
Proof. intros R T. destruct (search_spec w mn mx mt R (S (Z.to_nat (mt + 1 - t))) t k ltac:(lia) T) as (r & F & SR & H).
  destruct SR as [(k' & p & t' & a & E & _)|[(k' & E & _)|(_ & k' & p & t' & _ & _ & _ & e & C)]]; [exists (S k', (Some a, p)), F; now rewrite <- E|exists (k', (None, mx)), F; now rewrite <- E|now apply NC in C]. Qed.
End S.
Local Open Scope nat_scope.

Definition total (ms : list vec) : nat := list_sum (map weight ms).
Lemma total_nonzero ms : total (filter (fun m => 0 <? weight m) ms) = total ms.
Proof. unfold total. induction ms as [|m ms IHm]; auto. cbn [filter map list_sum fold_right]. destruct (Nat.ltb_spec 0 (weight m)); cbn [map list_sum fold_right] in *; unfold list_sum in *; lia. Qed.
Lemma total_app a b : total (a ++ b) = total a + total b.
Proof. unfold total. now rewrite map_app, list_sum_app. Qed.
Lemma total_zeros n k : total (repeat (vzero n) k) = 0.
Proof. unfold total. induction k as [|k IHk]; auto. cbn [repeat map list_sum fold_right]. rewrite weight_zeros. exact IHk. Qed.
Section Opt.
Variables (n : nat) (checks : mat) (e : env).
Hypotheses (WC : wf n checks) (SOK : forall k, solver_ok 1 (e_solver e k)).
(** products of checks that meet every fault in exactly one position: what verification_stabilizers asks for *)
Definition meets_all (F ms : mat) : Prop := (forall m, In m ms -> span n checks m) /\ (forall f, In f F -> exists m, In m ms /\ overlap n m f = 1).
Lemma overlap_zero f : overlap n (vzero n) f = 0.
Proof. unfold overlap. rewrite (filter_ext _ (fun _ => false)) by (intros i; now rewrite nth_vzero). induction (seq 0 n); auto. Qed.
Lemma weight_zero_vec m : length m = n -> weight m = 0 -> m = vzero n.
Proof. intros L Z. apply nth_ext with (d := false) (d' := false); [now rewrite vzero_length|]. intros i _. rewrite nth_vzero. now apply weight_zero_iff. Qed.
Lemma nonzero_meets F ms : meets_all F ms -> meets_all F (filter (fun m => 0 <? weight m) ms).
Proof. intros [A B]. split; [intros m Hm; apply filter_In in Hm; apply A; tauto|]. intros f Hf. destruct (B f Hf) as (m & Hm & D). exists m. split; auto. apply filter_In. split; auto.
  apply Nat.ltb_lt. destruct (Nat.eq_dec (weight m) 0) as [Z|]; [|lia]. exfalso. rewrite (weight_zero_vec m (span_length n checks m WC (A m Hm)) Z), overlap_zero in D. discriminate. Qed.
Lemma vs_meets k F a c ms : checks <> [] -> wf n F -> verification_stabilizers (e_solver e k) n checks F a c = Some ms -> meets_all F ms /\ length ms = a /\ total ms <= c.
Proof. intros NE WF H. destruct (vs_sound n checks WC NE _ _ _ _ _ (SOK k) WF H) as (L & SP & D & T). split; [split; auto|]. auto. Qed.
Lemma vs_none k F a c ms : checks <> [] -> wf n F -> verification_stabilizers (e_solver e k) n checks F a c = None -> meets_all F ms -> length ms <= a -> c < total ms.
Proof. intros NE WF H [A B] L. destruct (Nat.lt_ge_cases c (total ms)) as [|G]; auto. exfalso.
  destruct (vs_complete n checks WC NE _ _ _ _ (SOK k) WF H (ms ++ repeat (vzero n) (a - length ms))) as (f & Hf & NF).
  - rewrite app_length, repeat_length. lia.
  - intros m Hm. apply in_app_iff in Hm as [Hm|Hm]; [auto|]. apply repeat_spec in Hm as ->. apply span_zero.
  - fold (total (ms ++ repeat (vzero n) (a - length ms))). rewrite total_app, total_zeros. lia.
  - destruct (B f Hf) as (m & Hm & O). apply (NF m); auto. apply in_app_iff. auto. Qed.
Lemma meets_pos F ms : F <> [] -> meets_all F ms -> 1 <= length ms /\ 1 <= total ms.
Proof. intros NE [A B]. destruct F as [|f F]; [congruence|]. destruct (B f (or_introl eq_refl)) as (m & Hm & O). assert (W : weight m <> 0). { intros Z. rewrite (weight_zero_vec m (span_length n checks m WC (A m Hm)) Z), overlap_zero in O. discriminate. }
  apply in_split in Hm as (l1 & l2 & ->). rewrite app_length, total_app. unfold total at 2. cbn [length map list_sum fold_right]. unfold list_sum. lia. Qed.

Variables (max_anc : nat) (tmin tmax : Z) (F : mat).
Hypotheses (NLATE : forall k t, e_late e k t = false) (WF : wf n F) (NF : F <> []) (NC : checks <> []) (NZ : forall c, In c checks -> weight c <> 0) (T1 : (1 <= tmin)%Z) (T2 : (tmin <= tmax)%Z).
Lemma range : exists w0 ws, map weight checks = w0 :: ws /\ (1 <= Z.of_nat (min_list w0 ws) <= Z.of_nat (list_sum (w0 :: ws)))%Z /\ list_sum (w0 :: ws) = total checks /\ (forall c, In c checks -> min_list w0 ws <= weight c).
Proof. destruct checks as [|c0 cs]; [congruence|]. exists (weight c0), (map weight cs). split; auto.
  assert (ML : forall l m, min_list m l <= m /\ (forall x, In x l -> min_list m l <= x) /\ (min_list m l = m \/ In (min_list m l) l)).
  { induction l as [|x l IHl]; intros m; cbn [min_list]; [split; [lia|split; [intros x []|auto]]|]. destruct (IHl (Nat.min m x)) as (A & B & C). split; [lia|]. split.
    - intros y [<-|Hy]; [lia|auto].
    - destruct C as [C|C]; [|right; now right]. destruct (Nat.min_spec m x) as [[_ E]|[_ E]]; rewrite E in *; [left; lia|right; left; lia]. }
  destruct (ML (map weight cs) (weight c0)) as (A & B & C). set (m0 := min_list (weight c0) (map weight cs)) in *.
  assert (P : m0 <> 0). { intros Z. destruct C as [C|C]; [apply (NZ c0); [now left|lia]|]. apply in_map_iff in C as (c & E & Hc). apply (NZ c); [now right|lia]. }
  split; [|split; [reflexivity|]].
  - cbn [list_sum fold_right]. lia.
  - intros c [<-|Hc]; [auto|]. apply B. now apply in_map. Qed.
Lemma optimal_layer_spec fuel k k' o : optimal_layer fuel e n checks max_anc tmin tmax F k = Done (k', o) ->
  match o with
  | None => forall ms, meets_all F ms -> length ms <= max_anc -> total checks < total ms
  | Some ms => meets_all F ms /\ length ms <= max_anc /\
      (forall ms', meets_all F ms' -> length ms' <= length ms -> total ms <= total ms') /\
      (forall ms', meets_all F ms' -> total ms' <= total ms -> length ms <= length ms') /\
      (forall ms', meets_all F ms' -> length ms' <= max_anc -> (forall c, In c checks -> total ms <= weight c) \/ total ms < 2 * total ms')
  end.
Proof. unfold optimal_layer. destruct range as (w0 & ws & EW & R & ES & LO). rewrite EW. rewrite ES in *. set (lo := min_list w0 ws) in *.
  assert (NOW : forall a k p t, nothing (cnot_world e n checks F a) k p t -> verification_stabilizers (e_solver e k) n checks F a (Z.to_nat p) = None).
  { intros a k0 p t [L|N]; cbn [w_late w_fun cnot_world] in *; [rewrite NLATE in L; discriminate|congruence]. }
  assert (NOA : forall c k p t, nothing (anc_world e n checks F c) k p t -> verification_stabilizers (e_solver e k) n checks F (Z.to_nat p) c = None).
  { intros a k0 p t [L|N]; cbn [w_late w_fun anc_world] in *; [rewrite NLATE in L; discriminate|congruence]. }
  destruct (iterative_search_with_timeout _ _ _ _ _ _ _) as [[k1 [[ms1|] p1]]| |] eqn:E1; cbn [obind]; try discriminate.
  2:{ intros [= _ <-]. intros ms M L. destruct (search_none _ _ _ _ _ _ _ _ _ R T2 E1) as (k2 & t & N). apply NOW in N. rewrite Nat2Z.id in N. exact (vs_none _ _ _ _ _ NC WF N M L). }
  destruct (search_first _ _ _ _ _ _ _ _ _ _ R E1) as (R1 & (k0 & t0 & Y1) & FST). destruct Y1 as [_ Y1]. cbn [w_fun cnot_world] in Y1. assert (Y1' : verification_stabilizers (e_solver e k0) n checks F max_anc (Z.to_nat p1) = Some ms1) by congruence. clear Y1. rename Y1' into Y1.
  destruct (vs_meets _ _ _ _ _ NC WF Y1) as (M1 & L1 & TT1). pose proof (nonzero_meets F ms1 M1) as M1'. pose proof (total_nonzero ms1) as TN. set (ms1' := filter _ ms1) in *.
  assert (LL1 : length ms1' <= max_anc) by (rewrite <- L1; unfold ms1'; clear; induction ms1 as [|m l IHl]; cbn [filter]; [auto|]; destruct (0 <? weight m); cbn [length]; lia).
  destruct (meets_pos F ms1' NF M1') as [P1 P1'].
  destruct (descend _ (cnot_world _ _ _ _ _) _ _ _ _ _) as [[k2 [ms2 p2]]| |] eqn:E2; cbn [obind]; try discriminate.
  destruct (descend_final _ _ _ _ _ _ _ _ _ E2) as (R2 & B2 & N2 & Q2). specialize (Q2 ltac:(lia)).
  assert (D2 : meets_all F ms2 /\ length ms2 = length ms1' /\ total ms2 <= Z.to_nat p2).
  { destruct B2 as [[-> ->]|(k0' & _ & Y2)]; [split; auto; split; auto; lia|]. cbn [w_fun cnot_world] in Y2. assert (Y2' : verification_stabilizers (e_solver e k0') n checks F (length ms1') (Z.to_nat p2) = Some ms2) by congruence. apply (vs_meets _ _ _ _ _ NC WF Y2'). }
  destruct D2 as (M2 & L2 & TT2).
  assert (MIN : forall ms', meets_all F ms' -> length ms' <= length ms1' -> Z.to_nat p2 <= total ms').
  { intros ms' M' L'. destruct N2 as [N2|(k3 & N2)]; [destruct (meets_pos F ms' NF M'); lia|]. apply NOW in N2. pose proof (vs_none _ _ _ _ _ NC WF N2 M' L'). lia. }
  destruct (descend _ (anc_world _ _ _ _ _) _ _ _ _ _) as [[k3 [ms3 p3]]| |] eqn:E3; cbn [obind]; try discriminate. intros [= _ <-]. cbn [fst snd].
  destruct (descend_final _ _ _ _ _ _ _ _ _ E3) as (R3 & B3 & N3 & Q3). specialize (Q3 ltac:(lia)).
  assert (D3 : meets_all F ms3 /\ length ms3 = Z.to_nat p3 /\ total ms3 <= Z.to_nat p2).
  { destruct B3 as [[-> ->]|(k0' & _ & Y3)]; [split; auto; split; lia|]. cbn [w_fun anc_world] in Y3. assert (Y3' : verification_stabilizers (e_solver e k0') n checks F (Z.to_nat p3) (Z.to_nat p2) = Some ms3) by congruence. apply (vs_meets _ _ _ _ _ NC WF Y3'). }
  destruct D3 as (M3 & L3 & TT3). split; auto. split; [lia|]. split; [|split].
  - intros ms' M' L'. specialize (MIN ms' M' ltac:(lia)). lia.
  - intros ms' M' T'. destruct (Nat.le_gt_cases (length ms3) (length ms')) as [|G]; auto. exfalso. destruct N3 as [N3|(k4 & N3)]; [destruct (meets_pos F ms' NF M'); lia|]. apply NOA in N3. pose proof (vs_none _ _ _ _ _ NC WF N3 M' ltac:(lia)). lia.
  - intros ms' M' L'. destruct FST as [FST|(p & k4 & t4 & FP & FR & FN)]; [left; intros c Hc; specialize (LO c Hc); lia|right]. apply NOW in FN. pose proof (vs_none _ _ _ _ _ NC WF FN M' L'). lia. Qed.
End Opt.
Section Layers.
Variables (n : nat) (checks : mat) (e : env).
Hypotheses (WC : wf n checks) (SOK : forall k, solver_ok 1 (e_solver e k)).
Variables (max_anc : nat) (tmin tmax : Z).
Hypotheses (NZ : forall c, In c checks -> weight c <> 0) (T1 : (1 <= tmin)%Z).
(** with enough fuel the search always ends *)
Lemma optimal_layer_total F k : wf n F -> checks <> [] -> exists r F0, forall fuel, F0 <= fuel -> optimal_layer fuel e n checks max_anc tmin tmax F k = Done r.
Proof. intros WF NC. unfold optimal_layer. destruct (range n checks WC NC NZ) as (w0 & ws & EW & R & ES & LO). rewrite EW. rewrite ES in *. set (lo := min_list w0 ws) in *.
  assert (NRW : forall a k p x, w_fun (cnot_world e n checks F a) k p <> Raise x) by (intros a k0 p x; cbn; discriminate).
  assert (NRA : forall c k p x, w_fun (anc_world e n checks F c) k p <> Raise x) by (intros a k0 p x; cbn; discriminate).
  destruct (search_total (cnot_world e n checks F max_anc) (NRW max_anc) k _ _ tmin tmax R T1) as ([k1 [[ms1|] p1]] & F1 & H1).
  - set (ms1' := filter (fun m => 0 <? weight m) ms1). destruct (descend_total (cnot_world e n checks F (length ms1')) (NRW _) tmax (Z.to_nat p1) k1 ms1' p1 (le_n _)) as ([k2 [ms2 p2]] & H2).
    destruct (descend_total (anc_world e n checks F (Z.to_nat p2)) (NRA _) tmax (length ms1') k2 ms2 (Z.of_nat (length ms1')) ltac:(lia)) as ([k3 [ms3 p3]] & H3).
    exists (k3, Some ms3), (F1 + Z.to_nat p1 + length ms1'). intros fuel Hf. rewrite H1 by lia. cbn [obind]. fold ms1'. rewrite H2 by lia. cbn [obind]. rewrite H3 by lia. reflexivity.
  - exists (k1, None), F1. intros fuel Hf. rewrite H1 by lia. reflexivity. Qed.
Lemma optimal_layers_total sets : (forall y, In y sets -> exists F, y = Some F /\ wf n F /\ forall f, In f F -> exists c, In c checks /\ dot c f = true) -> forall k,
  exists r F0, forall fuel, F0 <= fuel -> optimal_layers fuel e n checks max_anc tmin tmax sets k = Done r.
Proof. induction sets as [|y sets IHs]; intros HS k.
  - exists (k, Some []), 0. intros; reflexivity.
  - destruct (HS y (or_introl eq_refl)) as (F & -> & WF & D). assert (HS' : forall y, In y sets -> exists F, y = Some F /\ wf n F /\ forall f, In f F -> exists c, In c checks /\ dot c f = true) by (intros z Hz; apply HS; now right).
    destruct F as [|f F].
    + destruct (IHs HS' k) as (r & F0 & H). exists (fst r, option_map (cons []) (snd r)), F0. intros fuel Hf. cbn [optimal_layers]. rewrite H by auto. reflexivity.
    + assert (NC : checks <> []) by (destruct (D f (or_introl eq_refl)) as (c & Hc & _); intros E; rewrite E in Hc; destruct Hc).
      destruct (optimal_layer_total (f :: F) k WF NC) as ([k1 [l|]] & F1 & H1).
      * destruct (IHs HS' k1) as (r & F0 & H). exists (fst r, option_map (cons l) (snd r)), (F0 + F1). intros fuel Hf. cbn [optimal_layers]. rewrite H1 by lia. cbn [obind]. rewrite H by lia. reflexivity.
      * exists (k1, None), F1. intros fuel Hf. cbn [optimal_layers]. rewrite H1 by lia. reflexivity. Qed.
Hypotheses (NLATE : forall k t, e_late e k t = false) (T2 : (tmin <= tmax)%Z).
Definition layer_spec (F : mat) (layer : list vec) : Prop := length layer <= max_anc /\ (forall m, In m layer -> weight m <> 0) /\
  (forall ms', meets_all n checks F ms' -> length ms' <= length layer -> total layer <= total ms') /\
  (forall ms', meets_all n checks F ms' -> total ms' <= total layer -> length layer <= length ms') /\
  (forall ms', meets_all n checks F ms' -> length ms' <= max_anc -> (forall c, In c checks -> total layer <= weight c) \/ total layer <= 2 * total ms' - 1).
Lemma empty_spec : layer_spec [] [].
Proof. split; [cbn; lia|]. split; [intros m []|]. cbn [length total map list_sum fold_right]. unfold total. cbn. split; [lia|]. split; [lia|]. intros ms' _ _. right. lia. Qed.
Lemma filter_short ms : (forall m : vec, In m ms -> weight m <> 0) \/ length (filter (fun m => 0 <? weight m) ms) < length ms.
Proof. induction ms as [|m ms IHm]; [left; intros m []|]. cbn [filter length]. destruct (Nat.ltb_spec 0 (weight m)) as [L|L]; cbn [length].
  - destruct IHm as [A|A]; [left|right; lia]. intros x [<-|Hx]; [lia|auto].
  - right. assert (length (filter (fun m => 0 <? weight m) ms) <= length ms); [|lia]. clear. induction ms as [|a l IHl]; cbn [filter length]; auto. destruct (0 <? weight a); cbn [length]; lia. Qed.
Lemma optimal_layers_spec fuel : forall sets k k' o, (forall y, In y sets -> exists F, y = Some F /\ wf n F /\ forall f, In f F -> exists c, In c checks /\ dot c f = true) ->
  optimal_layers fuel e n checks max_anc tmin tmax sets k = Done (k', o) ->
  match o with
  | None => exists i F, nth_error sets i = Some (Some F) /\ forall ms, meets_all n checks F ms -> length ms <= max_anc -> total checks < total ms
  | Some layers => length layers = length sets /\ forall i F layer, nth_error sets i = Some (Some F) -> nth_error layers i = Some layer -> layer_spec F layer
  end.
Proof. induction sets as [|y sets IHs]; intros k k' o HS; [intros [= _ <-]; split; auto; intros [|i]; discriminate|].
  destruct (HS y (or_introl eq_refl)) as (F & -> & WF & D). assert (HS' : forall y, In y sets -> exists F, y = Some F /\ wf n F /\ forall f, In f F -> exists c, In c checks /\ dot c f = true) by (intros z Hz; apply HS; now right).
  destruct F as [|f F]; cbn [optimal_layers].
  - destruct (optimal_layers _ _ _ _ _ _ _ sets k) as [[k1 [ls|]]| |] eqn:E1; cbn [obind fst snd option_map]; try discriminate; intros [= _ <-].
    + destruct (IHs _ _ _ HS' E1) as [L Q]. split; [cbn [length]; auto|]. intros [|i] G l; cbn [nth_error]; [intros [= <-] [= <-]; apply empty_spec|apply Q].
    + destruct (IHs _ _ _ HS' E1) as (i & G & A & B). exists (S i), G. auto.
  - assert (NC : checks <> []) by (destruct (D f (or_introl eq_refl)) as (c & Hc & _); intros E; rewrite E in Hc; destruct Hc).
    destruct (optimal_layer _ _ _ _ _ _ _ _ k) as [[k1 [l|]]| |] eqn:E1; cbn [obind]; try discriminate.
    + pose proof (optimal_layer_spec n checks e WC SOK max_anc tmin tmax (f :: F) NLATE WF ltac:(discriminate) NC NZ T2 _ _ _ _ E1) as SP. cbn iota in SP.
      destruct (optimal_layers _ _ _ _ _ _ _ sets k1) as [[k2 [ls|]]| |] eqn:E2; cbn [obind fst snd option_map]; try discriminate; intros [= _ <-].
      * destruct (IHs _ _ _ HS' E2) as [L Q]. split; [cbn [length]; auto|]. intros [|i] G l'; cbn [nth_error]; [intros [= <-] [= <-]|apply Q]. destruct SP as (M & LM & A & B & C). split; auto. split.
        -- destruct (filter_short l) as [H|H]; auto. exfalso. specialize (B _ (nonzero_meets n checks WC _ _ M)). rewrite total_nonzero in B. specialize (B (le_n _)). lia.
        -- split; auto. split; auto. intros ms' M' L'. destruct (C ms' M' L'); [auto|right; lia].
      * destruct (IHs _ _ _ HS' E2) as (i & G & A & B). exists (S i), G. auto.
    + intros [= _ <-]. exists 0, (f :: F). split; auto. exact (optimal_layer_spec n checks e WC SOK max_anc tmin tmax (f :: F) NLATE WF ltac:(discriminate) NC NZ T2 _ _ _ _ E1). Qed.
End Layers.
