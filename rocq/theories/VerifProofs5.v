(** * VerifProofs5: layers of verification stabilizers *)
From Verif Require Export VerifProofs4.
Local Open Scope nat_scope.

(** every fault of the i-th set is noticed by a member of the i-th layer, and layers consist of products of checks *)
Definition layers_ok (n : nat) (checks : mat) (sets : list (option mat)) (layers : list (list vec)) : Prop :=
  length layers = length sets /\ forall i F, nth_error sets i = Some (Some F) -> exists layer, nth_error layers i = Some layer /\
    (forall m, In m layer -> span n checks m) /\ (forall f, In f F -> exists m, In m layer /\ dot m f = true).
Lemma layers_nil n checks : layers_ok n checks [] [].
Proof. split; auto. intros [|i] F; discriminate. Qed.
Lemma layers_cons n checks F sets layer layers : (forall m, In m layer -> span n checks m) -> (forall f, In f F -> exists m, In m layer /\ dot m f = true) -> layers_ok n checks sets layers ->
  layers_ok n checks (Some F :: sets) (layer :: layers).
Proof. intros A B [L C]. split; [cbn; auto|]. intros [|i] G; cbn [nth_error]; [intros [= <-]; eauto|]. apply C. Qed.

Lemma heuristic_layers_sound fuel ord opt n checks fcl max_sets : wf n checks -> ord_ok ord -> optimizer_ok 1 opt -> forall sets layers,
  (forall F, In (Some F) sets -> wf n F) -> heuristic_layers fuel ord opt checks fcl max_sets sets = Done layers -> layers_ok n checks sets layers.
Proof. intros WC OO OK. induction sets as [|[F|] sets IH]; intros layers WF H; cbn [heuristic_layers] in H; try discriminate; [injection H as <-; apply layers_nil|].
  destruct (match F with [] => _ | _ => _ end) as [layer| |] eqn:EL; cbn [obind] in H; try discriminate. destruct (heuristic_layers fuel ord opt checks fcl max_sets sets) as [ls| |] eqn:ES; cbn [obind] in H; try discriminate.
  injection H as <-. assert (LS : (forall m, In m layer -> span n checks m) /\ (forall f, In f F -> exists m, In m layer /\ dot m f = true)).
  { destruct F as [|f F']; [injection EL as <-; split; intros ? []|]. destruct (layer_sound fuel ord opt n (f :: F') checks fcl max_sets layer) as (A & B & _); auto. apply WF. now left. }
  apply layers_cons; try apply LS. apply IH; auto. intros G HG. apply WF. now right. Qed.
(** no measurement is wasted: each detects a fault of its layer *)
Lemma heuristic_layers_useful fuel ord opt n checks fcl max_sets : wf n checks -> ord_ok ord -> optimizer_ok 1 opt -> forall sets layers,
  (forall F, In (Some F) sets -> wf n F) -> heuristic_layers fuel ord opt checks fcl max_sets sets = Done layers ->
  forall i layer m, nth_error layers i = Some layer -> In m layer -> exists F f, nth_error sets i = Some (Some F) /\ In f F /\ dot m f = true.
Proof. intros WC OO OK. induction sets as [|[F|] sets IH]; intros layers WF H; cbn [heuristic_layers] in H; try discriminate; [injection H as <-; intros [|i] layer m; discriminate|].
  destruct (match F with [] => _ | _ => _ end) as [layer| |] eqn:EL; cbn [obind] in H; try discriminate. destruct (heuristic_layers fuel ord opt checks fcl max_sets sets) as [ls| |] eqn:ES; cbn [obind] in H; try discriminate.
  injection H as <-. intros [|i] l m E Hm; cbn [nth_error] in *.
  - injection E as <-. exists F. destruct F as [|f F']; [injection EL as <-; destruct Hm|]. destruct (layer_sound fuel ord opt n (f :: F') checks fcl max_sets layer) as (_ & _ & B); auto; [apply WF; now left|]. destruct (B m Hm) as (g & Hg & D). exists g. auto.
  - apply (IH ls) with (i := i) (layer := l); auto. intros G HG. apply WF. now right. Qed.
Lemma heuristic_layers_terminate ord opt n checks fcl max_sets : wf n checks -> ord_ok ord -> forall sets,
  (forall y, In y sets -> exists F, y = Some F /\ wf n F /\ forall f, In f F -> exists c, In c checks /\ dot c f = true) ->
  exists F0, forall fuel, F0 <= fuel -> exists layers, heuristic_layers fuel ord opt checks fcl max_sets sets = Done layers.
Proof. intros WC OO. induction sets as [|y sets IH]; intros H; [exists 0; intros; cbn; eauto|].
  destruct IH as (F1 & H1); [intros z Hz; apply H; now right|]. destruct (H y (or_introl eq_refl)) as (F & -> & WF & D).
  destruct (layer_terminates ord opt n F checks fcl max_sets WF WC OO D) as (F2 & H2). exists (F1 + F2). intros fuel Hf. cbn [heuristic_layers].
  destruct (H1 fuel ltac:(lia)) as (ls & E1). rewrite E1. destruct (H2 fuel ltac:(lia)) as (l & E2). destruct F as [|f F']; [cbn [obind]; eauto|]. rewrite E2. cbn [obind]. eauto. Qed.

(** ** the searches return only what some call returned *)
Section Any.
Context {A : Type} (w : world A).
Lemma inner_any fuel : forall k cur mx t k' a p, inner_search fuel w k cur mx t = Done (k', Some (a, p)) -> exists k0, w_fun w k0 p = Ret (Some a).
Proof. induction fuel as [|fuel IH]; intros k cur mx t k' a p; cbn [inner_search]; destruct (mx <? cur)%Z; try discriminate.
  destruct (run_cases w k cur t) as [(E & N)|[(E & N)|[(b & E & Y)|(E & C)]]]; rewrite E; try discriminate.
  1,2: (destruct (cur =? mx)%Z; [discriminate|apply IH]). intros [= <- <- <-]. exists k. apply Y. Qed.
Lemma search_any fuel : forall k mn mx t mt k' a p, iterative_search_with_timeout fuel w k mn mx t mt = Done (k', (Some a, p)) -> exists k0, w_fun w k0 p = Ret (Some a).
Proof. induction fuel as [|fuel IH]; intros k mn mx t mt k' a p; cbn [iterative_search_with_timeout]; destruct (mt <? t)%Z; try discriminate.
  destruct (inner_search (S fuel) w k mn mx t) as [[k1 [[b q]|]]| |] eqn:E; try discriminate; [|apply IH]. intros [= <- <- <-]. eapply inner_any; eauto. Qed.
Lemma descend_any fuel : forall k low best cur mt k' a p, descend fuel w k low best cur mt = Done (k', (a, p)) -> (a = best /\ p = cur) \/ exists k0, w_fun w k0 p = Ret (Some a).
Proof. induction fuel as [|fuel IH]; intros k low best cur mt k' a p; cbn [descend].
  - destruct (match low with Some l => _ | None => _ end); try discriminate. intros [= <- <- <-]. auto.
  - destruct (match low with Some l => _ | None => _ end); [intros [= <- <- <-]; auto|].
    destruct (run_cases w k (cur - 1) mt) as [(E & N)|[(E & N)|[(b & E & Y)|(E & C)]]]; rewrite E; try discriminate.
    1,2: (intros [= <- <- <-]; auto). intros H. destruct (IH _ _ _ _ _ _ _ _ H) as [[-> ->]|HH]; auto. right. exists k. apply Y. Qed.
End Any.

Section Opt.
Variables (n : nat) (checks : mat) (e : env).
Hypotheses (WC : wf n checks) (SOK : forall k, solver_ok 1 (e_solver e k)).
Definition detects_all (F ms : mat) : Prop := (forall m, In m ms -> span n checks m) /\ (forall f, In f F -> exists m, In m ms /\ dot m f = true).
Lemma vs_detects k F a c ms : checks <> [] -> wf n F -> verification_stabilizers (e_solver e k) n checks F a c = Some ms -> detects_all F ms.
Proof. intros NE WF H. destruct (vs_sound n checks WC NE _ _ _ _ _ (SOK k) WF H) as (_ & SP & D & _). split; auto. intros f Hf. destruct (D f Hf) as (m & Hm & O). exists m. split; auto.
  apply (overlap_dot n); auto; [exact (span_length n checks m WC (SP m Hm))|exact (wf_in n F f WF Hf)]. Qed.
Lemma nonzero_detects F ms : wf n F -> detects_all F ms -> detects_all F (filter (fun m => 0 <? weight m) ms).
Proof. intros WF [A B]. split; [intros m Hm; apply filter_In in Hm; apply A; tauto|]. intros f Hf. destruct (B f Hf) as (m & Hm & D). exists m. split; auto. apply filter_In. split; auto.
  apply Nat.ltb_lt. destruct (Nat.eq_dec (weight m) 0) as [Z|]; [|lia]. exfalso. pose proof (span_length n checks m WC (A m Hm)) as Lm. assert (E : m = vzero n).
  { apply nth_ext with (d := false) (d' := false); [now rewrite vzero_length|]. intros i _. rewrite nth_vzero. now apply weight_zero_iff. }
  rewrite E in D. rewrite dot_zero_l in D. discriminate. Qed.
Lemma optimal_layer_sound fuel ma tmin tmax F k k' ms : wf n F -> optimal_layer fuel e n checks ma tmin tmax F k = Done (k', Some ms) -> detects_all F ms.
Proof. intros WF. unfold optimal_layer. destruct (map weight checks) as [|w0 ws] eqn:EW; [discriminate|]. assert (NE : checks <> []) by (intros ->; discriminate).
  destruct (iterative_search_with_timeout _ _ _ _ _ _ _) as [[k1 [[ms1|] p1]]| |] eqn:E1; cbn [obind]; try discriminate.
  destruct (search_any _ _ _ _ _ _ _ _ _ _ E1) as (k0 & Y). cbn [w_fun cnot_world] in Y. injection Y as Y. pose proof (nonzero_detects F ms1 WF (vs_detects _ _ _ _ _ NE WF Y)) as D1. set (ms1' := filter _ ms1) in *.
  destruct (descend _ (cnot_world _ _ _ _ _) _ _ _ _ _) as [[k2 [ms2 p2]]| |] eqn:E2; cbn [obind]; try discriminate.
  assert (D2 : detects_all F ms2). { destruct (descend_any _ _ _ _ _ _ _ _ _ _ E2) as [[-> _]|(k0' & Y2)]; auto. cbn [w_fun cnot_world] in Y2. injection Y2 as Y2. eapply vs_detects; eauto. }
  destruct (descend _ (anc_world _ _ _ _ _) _ _ _ _ _) as [[k3 [ms3 p3]]| |] eqn:E3; cbn [obind]; try discriminate. intros [= _ <-]. cbn [fst snd].
  destruct (descend_any _ _ _ _ _ _ _ _ _ _ E3) as [[-> _]|(k0' & Y3)]; auto. cbn [w_fun anc_world] in Y3. injection Y3 as Y3. eapply vs_detects; eauto. Qed.
Lemma optimal_layers_sound fuel ma tmin tmax : forall sets k k' layers, (forall F, In (Some F) sets -> wf n F) -> optimal_layers fuel e n checks ma tmin tmax sets k = Done (k', Some layers) -> layers_ok n checks sets layers.
Proof. induction sets as [|[[|f F]|] sets IH]; intros k k' layers WF; cbn [optimal_layers]; try discriminate.
  - intros [= _ <-]. apply layers_nil.
  - destruct (optimal_layers _ _ _ _ _ _ _ sets k) as [[k1 [ls|]]| |] eqn:E; cbn [obind fst snd option_map]; try discriminate. intros [= _ <-]. apply layers_cons; try (intros ? []). eapply IH; eauto. intros G HG. apply WF. now right.
  - destruct (optimal_layer _ _ _ _ _ _ _ _ k) as [[k1 [l|]]| |] eqn:E1; cbn [obind]; try discriminate. destruct (optimal_layers _ _ _ _ _ _ _ sets k1) as [[k2 [ls|]]| |] eqn:E2; cbn [obind fst snd option_map]; try discriminate. intros [= _ <-].
    destruct (optimal_layer_sound _ _ _ _ _ _ _ _ (WF (f :: F) (or_introl eq_refl)) E1) as [A B]. apply layers_cons; auto. eapply IH; eauto. intros G HG. apply WF. now right. Qed.
(** nothing found at full size: either a call was too late or no set of checks of the full budget exists *)
End Opt.

(** ** from fault sets to errors *)
Lemma dot_equiv s x m e f : spc_ok s -> span (sp_n s) (orth_checks s x) m -> length e = sp_n s -> length f = sp_n s -> span (sp_n s) (stabs_of s x) (vxor e f) -> dot m e = dot m f.
Proof. intros SO SM Le_ Lf SE. pose proof (orth_wf s x SO) as WO. pose proof SO as (WX & WZ & _ & _ & _ & KZ & KX). pose proof (span_length _ _ _ WO SM) as Lm.
  assert (K : in_kernel (sp_n s) (orth_checks s x) (vxor e f)) by (unfold orth_checks, stabs_of in *; destruct x; [now apply KZ|now apply KX]).
  assert (Z : dot m (vxor e f) = false). { rewrite dot_comm. apply (dot_span_zero _ _ (vxor e f) WO); auto. intros r Hr. rewrite dot_comm. now apply K. }
  rewrite dot_vxor_r in Z by congruence. destruct (dot m e), (dot m f); auto; discriminate. Qed.
