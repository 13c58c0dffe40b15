(** * Properties C21-C23: the LightsOut decoder (cc_decoder/decoder.py). *)
From Verif Require Import LightsProofs.

(** ** C21 *)
(** Problem construction succeeds for every problem in which every light has at least two switches; the soft
    constraints are "switch i is not pressed", once for every switch and nothing else. *)
Theorem C21_preconstruct : forall a b, lights_ok a b -> exists st,
  preconstruct_z3_instance (LightsOut a b) = (st, Ret tt) /\
  (forall m, zsat m (o_hard (opt st)) -> forall x, (forall i, m (Switch i) = x i) ->
     forall j sws, In (j, sws) a -> forall val, exists st', complete_parity_constraint j sws val st = (st', Ret tt) /\
       (zsat m (o_hard (opt st')) <-> parity x sws = val)) /\
  (forall x, exists m, (forall i, m (Switch i) = x i) /\ zsat m (o_hard (opt st))) /\
  o_soft (opt st) = map (fun i => Znot (Zv (Switch i))) (seq 0 (length b)).
Proof. intros a b LO. exists (pre_state a b). split; [now apply preconstruct_ok|]. split; [|split].
  - intros m Hm x Hx j sws Hin val. exists (addh [comp_cons j sws val] (pre_state a b)). destruct LO as [LN LB].
    destruct (LB j sws Hin) as [L I]. split.
    + apply complete_light with (n := length b); auto. apply hvars_find. now apply dfind_some.
    + assert (HP : zsat m (pre_cons j sws)).
      { intros e He. apply Hm. cbn. apply in_flat_map. exists (j, sws). auto. }
      cbn [addh set_opt opt o_hard]. rewrite zsat_app.
      assert (EP : parity (fun i => m (Switch i)) sws = parity x sws) by (clear -Hx; induction sws as [|q l IH]; cbn; [reflexivity|]; unfold parity in *; rewrite IH, Hx; reflexivity).
      rewrite <- EP. rewrite <- (light_sound m j sws val L HP). split.
      * intros [_ H]. apply H. now left.
      * intros H. split; [exact Hm|]. intros e [<-|[]]; auto.
  - intros x. exists (canon a x). split; auto. now apply (canon_sat a b).
  - cbn. unfold soft_of, svars. now rewrite map_map. Qed.
Print Assumptions C21_preconstruct.

(** The whole system: a switch assignment extends to a model of all hard constraints iff every light's parity is
    as requested. *)
Theorem C21_system : forall a b lights st, lights_ok a b ->
  preconstruct_z3_instance (LightsOut a b) = (st, Ret tt) -> (forall j, j < length lights -> dfind j a <> None) ->
  exists st',
    mfor (combine (seq 0 (length lights)) lights) (fun '(j, val) =>
      let! self := mget in let! idx := mlift (dget (l2s self) j) in complete_parity_constraint j idx val) st = (st', Ret tt) /\
    forall x, (exists m, (forall i, m (Switch i) = x i) /\ zsat m (o_hard (opt st'))) <-> explains a lights x.
Proof. intros a b lights st LO E Hd. rewrite (preconstruct_ok a b LO) in E. injection E as <-.
  exists (addh (comp_all a lights) (pre_state a b)). split; [now apply complete_loop with (b := b)|]. intros x. cbn [addh set_opt opt o_hard]. split.
  - intros (m & Hx & Hm). apply zsat_app in Hm. destruct Hm as [H1 H2]. pose proof (proj1 (sat_iff a b lights m LO Hd H1) H2) as H.
    intros j Hj. destruct (H j Hj) as (sws & E1 & E2). exists sws. split; auto. rewrite <- E2. clear -Hx. induction sws as [|q l IH]; cbn; [reflexivity|]. unfold parity in *. rewrite IH, Hx. reflexivity.
  - intros H. exists (canon a x). split; auto. apply zsat_app. split; [now apply (canon_sat a b)|]. apply (sat_iff a b); auto. now apply (canon_sat a b). Qed.
Print Assumptions C21_system.

(** A light with fewer than two switches cannot be handled: construction fails. *)
Theorem C21_short_light_refuted : forall a b j sws, In (j, sws) a -> length sws < 2 ->
  (forall k ss, In (k, ss) a -> forall i, In i ss -> i < length b) ->
  NoDup (map fst a) -> exists st, preconstruct_z3_instance (LightsOut a b) = (st, Raise IndexError).
Proof. intros a b j sws Hin Hl Hb HN. unfold preconstruct_z3_instance, mbind at 1 2 3. unfold mget at 1. cbn [LightsOut switch_vars l2s s2l].
  set (s0 := set_sw _ _).
  assert (G : forall l s, switch_vars s = Some (svars (length b)) -> (forall k, In k (map fst l) -> ~ In k (map fst (helper_vars s))) -> NoDup (map fst l) ->
     (forall k ss, In (k, ss) l -> forall i, In i ss -> i < length b) -> In (j, sws) l ->
     exists st, mfor l (fun '(light, switches) =>
      let! self := mget in
      let! _ := (match dfind light (helper_vars self) with
                 | None => fun s => (set_hv (helper_vars s ++ [(light, map (Helper light) (seq 0 (length switches - 1)))]) s, Ret tt)
                 | Some _ => mret tt end) in
      preconstruct_parity_constraint light switches) s = (st, Raise IndexError)).
  { induction l as [|[k ss] l IH]; intros s Hs Hd Hn Hr Hi; [destruct Hi|].
    cbn [mfor]. unfold mbind at 1 2 3. unfold mget at 1. cbn in Hn. inversion Hn as [|? ? Hk Hn']; subst.
    rewrite (dfind_none k (helper_vars s)) by (apply Hd; now left). set (s1 := set_hv _ s).
    assert (Hh1 : dfind k (helper_vars s1) = Some (snd (hvars (k, ss)))).
    { subst s1; cbn. rewrite dfind_app. rewrite (dfind_none k (helper_vars s)) by (apply Hd; now left). cbn. now rewrite Nat.eqb_refl. }
    destruct (le_lt_dec 2 (length ss)) as [L2|L2].
    - rewrite (pre_light (length b) k ss s1); auto; [|intros i; apply (Hr k ss); now left].
      assert (Hi' : In (j, sws) l) by (destruct Hi as [E|]; auto; injection E as -> ->; lia).
      apply IH; auto.
      + intros k' Hk'. subst s1. cbn. rewrite map_app, in_app_iff. cbn. intros [H|[H|[]]]; [apply (Hd k'); auto; now right|]. subst k'. contradiction.
      + intros k' s' H. apply (Hr k'). now right.
    - exists s1. unfold preconstruct_parity_constraint, mbind, mget, mlift, get_switch_vars, dget. rewrite Hh1.
      assert (Hs1 : switch_vars s1 = Some (svars (length b))) by exact Hs. rewrite Hs1.
      replace (length ss - 2) with 0 by lia. cbn [seq mfor mret]. unfold mret.
      destruct (Nat.eq_dec (length ss) 0) as [E0|E0].
      + destruct ss; [reflexivity|discriminate].
      + rewrite (llast_some ss 0) by lia. rewrite svars_get by (apply (Hr k ss); [now left|apply nth_In; lia]).
        cbn [hvars snd fst]. replace (length ss - 1) with 0 by lia. reflexivity. }
  destruct (G a s0) as (st & E); auto.

  - exists st. now rewrite E. Qed.
Print Assumptions C21_short_light_refuted.

(** ** C22 *)
(** With a solver honouring its contract, [solve] answers exactly when some switch set turns off all lights; the
    answer is a 0/1 vector over the switches that does so with as few pressed switches as possible; the
    problem object is left as it was (so any history of such calls gives the same answers), and the caller's list
    of lights is overwritten with "all off". *)
Theorem C22_solve : forall sv a b lights st, solver_ok sv -> graph_ok a b -> length lights = length a ->
  preconstruct_z3_instance (LightsOut a b) = (st, Ret tt) ->
  ((exists x, explains a lights x) ->
   exists y, explains a lights y /\ (forall x, explains a lights x -> pressed (length b) y <= pressed (length b) x) /\
     solve sv lights st = (st, Ret (map (fun i => if y i then 1 else 0) (seq 0 (length b)), repeat false (length a)))) /\
  (~ (exists x, explains a lights x) -> exists st', solve sv lights st = (st', Raise AssertionError)).
Proof. intros sv a b lights st Hsv G HL E. rewrite (preconstruct_ok a b (graph_lights_ok a b G)) in E. injection E as <-.
  destruct (solve_main sv a b lights Hsv G HL) as [H1 H2]. split; auto. intros N. eexists. apply H2. exact N. Qed.
Print Assumptions C22_solve.

(** every error has a correctable syndrome, and the correction weighs no more than the error *)
Theorem C22_corrects_every_error : forall sv a b st (err : nat -> bool) lights, solver_ok sv -> graph_ok a b ->
  preconstruct_z3_instance (LightsOut a b) = (st, Ret tt) -> length lights = length a ->
  (forall j sws, In (j, sws) a -> nth j lights false = parity err sws) ->
  exists y : nat -> bool, solve sv lights st = (st, Ret (map (fun i => if y i then 1 else 0) (seq 0 (length b)), repeat false (length a))) /\
    pressed (length b) y <= pressed (length b) err /\
    forall j sws, In (j, sws) a -> parity (fun i => xorb (err i) (y i)) sws = false.
Proof. intros sv a b st err lights Hsv G E HL Hsyn.
  assert (X : explains a lights err).
  { intros j Hj. destruct (dfind j a) as [sws|] eqn:Ed; [|elim (graph_dfind a b j G (eq_ind _ (fun q => j < q) Hj _ HL) Ed)]. exists sws. split; auto. symmetry. apply Hsyn. now apply dfind_In. }
  destruct (proj1 (C22_solve sv a b lights st Hsv G HL E) (ex_intro (fun x => explains a lights x) err X)) as (y & Hy & Hmin & ES). exists y. split; auto. split; [now apply Hmin|].
  intros j sws Hin. assert (Hj : j < length a) by (destruct G as (_ & _ & K & _); apply K; apply (in_map fst) in Hin; exact Hin).
  destruct (Hy j (eq_ind_r (fun q => j < q) Hj HL)) as (sws' & Ed & P). destruct G as (N & _). rewrite (dfind_some j sws a N Hin) in Ed. injection Ed as <-.
  rewrite (Hsyn j sws Hin) in P. assert (PX : parity (fun i => xorb (err i) (y i)) sws = xorb (parity err sws) (parity y sws)).
  { clear. induction sws as [|i l IH]; cbn; auto. unfold parity in *. rewrite IH.
    destruct (err i), (y i), (fold_right (fun i b => xorb (err i) b) false l), (fold_right (fun i b => xorb (y i) b) false l); reflexivity. }
  rewrite PX, P. apply xorb_nilpotent. Qed.
Print Assumptions C22_corrects_every_error.

(** After an unsolvable pattern the object is unusable: the failed call leaves its constraints behind, so every
    later call fails too, also for patterns that do have a solution. *)
Theorem C22_failure_is_sticky_refuted : forall sv a b lights st st', solver_ok sv -> graph_ok a b -> length lights = length a ->
  preconstruct_z3_instance (LightsOut a b) = (st, Ret tt) -> ~ (exists x, explains a lights x) ->
  solve sv lights st = (st', Raise AssertionError) ->
  forall lights', length lights' = length a -> exists st'', solve sv lights' st' = (st'', Raise AssertionError).
Proof. intros sv a b lights st st' Hsv G HL E N ES lights' HL'. pose proof (graph_lights_ok a b G) as LO.
  rewrite (preconstruct_ok a b LO) in E. injection E as <-.
  rewrite (proj2 (solve_main sv a b lights Hsv G HL) N) in ES. injection ES as <-.
  assert (Hd : forall j, j < length lights -> dfind j a <> None) by (intros j Hj; apply (graph_dfind a b j G); lia).
  assert (Hd' : forall j, j < length lights' -> dfind j a <> None) by (intros j Hj; apply (graph_dfind a b j G); lia).
  rewrite (solve_unfold sv a b lights' _ LO Hd') by reflexivity.
  set (s2 := asked a b lights' _). specialize (Hsv (opt s2)). destruct (sv (opt s2)) as [m|]; [|eauto].
  exfalso. apply N. destruct Hsv as [Hm _]. exists (fun i => truthy m (Switch i)).
  assert (Hm1 : zsat (truthy m) (flat_map (fun e => pre_cons (fst e) (snd e)) a ++ comp_all a lights)).
  { intros e He. apply Hm. subst s2. cbn. apply in_app_iff. now left. }
  apply zsat_app in Hm1. destruct Hm1 as [H1 H2]. now apply (sat_iff a b lights _ LO Hd H1). Qed.
Print Assumptions C22_failure_is_sticky_refuted.

(** the contract can be met *)
Theorem C22_solver_exists : exists sv, solver_ok sv.
Proof. exists search_solver. apply search_solver_ok. Qed.

(** the distance-3 triangle (Steane) problem: three lights with four switches each, seven switches *)
Definition steane_l2s : list (nat * list nat) := [(0, [0;1;2;3]); (1, [1;2;4;5]); (2, [2;3;5;6])].
Definition steane_s2l : list (nat * list nat) := [(0,[0]); (1,[0;1]); (2,[0;1;2]); (3,[0;2]); (4,[1]); (5,[1;2]); (6,[2])].
Ltac pick H := cbn in H; repeat (destruct H as [H|H]; [injection H as <- <-|]); try contradiction H.
Example C22_steane_graph : graph_ok steane_l2s steane_s2l.
Proof. repeat split; try (cbn; repeat constructor; cbn; intuition discriminate).
  - cbn. intros [H|[H|[H|[]]]]; lia.
  - cbn. lia.
  - cbn. lia.
  - cbn. lia.
  - pick H; cbn; lia.
  - pick H; cbn; lia.
  - intros i ls H j Hj. pick H; cbn in *; lia.
  - intros j sws i ls H1 H2. pick H1; pick H2; reflexivity. Qed.
Definition small_l2s : list (nat * list nat) := [(0, [0;1;2]); (1, [1;2;3])].
Definition small_s2l : list (nat * list nat) := [(0,[0]); (1,[0;1]); (2,[0;1]); (3,[1])].
Example C22_small_run :
  snd (solve search_solver [true; true] (fst (preconstruct_z3_instance (LightsOut small_l2s small_s2l)))) = Ret ([0;0;1;0], [false;false]) \/
  snd (solve search_solver [true; true] (fst (preconstruct_z3_instance (LightsOut small_l2s small_s2l)))) = Ret ([0;1;0;0], [false;false]).
Proof. vm_compute. auto. Qed.
(** an unsolvable pattern: two lights with the same switches *)
Example C22_sticky_run :
  let st := fst (preconstruct_z3_instance (LightsOut [(0,[0;1]);(1,[0;1])] [(0,[0;1]);(1,[0;1])])) in
  let r := solve search_solver [true; false] st in
  snd r = Raise AssertionError /\ snd (solve search_solver [false; false] st) = Ret ([0;0],[false;false]) /\
  snd (solve search_solver [false; false] (fst r)) = Raise AssertionError.
Proof. vm_compute. auto. Qed.

(** ** C23 *)
(** validate_model answers whether pressing the model's switches turns off every light ... *)
Theorem C23_validate_model : forall a b m lights st, graph_ok a b -> preconstruct_z3_instance (LightsOut a b) = (st, Ret tt) ->
  length lights = length a ->
  exists r lights', validate_model m lights st = (st, Ret (r, lights')) /\
    (r = true <-> explains a lights (fun i => truthy m (Switch i))).
Proof. intros a b m lights st G E HL. rewrite (preconstruct_ok a b (graph_lights_ok a b G)) in E. injection E as <-.
  destruct (validate_graph a b m lights (pre_state a b) G HL eq_refl eq_refl) as (r & E & H). eauto. Qed.
Print Assumptions C23_validate_model.

(** ... and for every graph (also an inconsistent one) each light of the caller's list is toggled once per occurrence
    in the list of a pressed switch. *)
Theorem C23_toggles : forall a b m lights st, lights_ok a b -> preconstruct_z3_instance (LightsOut a b) = (st, Ret tt) ->
  (forall i, i < length b -> truthy m (Switch i) = true -> exists ls, dfind i b = Some ls /\ forall l, In l ls -> l < length lights) ->
  exists lights', validate_model m lights st = (st, Ret (forallb negb lights', lights')) /\ length lights' = length lights /\
    forall j, j < length lights -> nth j lights' false = xorb (nth j lights false)
      (Nat.odd (list_sum (map (fun i => if truthy m (Switch i) then match dfind i b with Some ls => count_occ Nat.eq_dec ls j | None => 0 end else 0) (seq 0 (length b))))).
Proof. intros a b m lights st LO E H. rewrite (preconstruct_ok a b LO) in E. injection E as <-.
  destruct (validate_loop_spec m b (length b) (length b) lights (le_n _) H) as (r & E & L & N). rewrite Nat.sub_diag in *.
  exists r. split; [unfold validate_model, mbind, get_switch_vars, mget, mlift, mret; cbn [pre_state switch_vars s2l]; unfold svars; now rewrite E|].
  split; auto. intros j Hj. rewrite N by auto. f_equal. clear. induction (seq 0 (length b)) as [|i l IH]; cbn [toggles map list_sum fold_right]; [reflexivity|].
  change (fold_right Nat.add 0) with list_sum. rewrite Nat.odd_add, <- IH. f_equal. all: destruct (truthy m (Switch i)); try reflexivity; destruct (dfind i b); reflexivity. Qed.
Print Assumptions C23_toggles.

Theorem C23_count_switches : forall a b m st, lights_ok a b -> preconstruct_z3_instance (LightsOut a b) = (st, Ret tt) ->
  count_switches m st = (st, Ret (pressed (length b) (fun i => truthy m (Switch i)))).
Proof. intros a b m st LO E. rewrite (preconstruct_ok a b LO) in E. injection E as <-. unfold count_switches, mbind, get_switch_vars, mret. cbn [pre_state switch_vars].
  f_equal. f_equal. unfold svars, pressed. induction (seq 0 (length b)) as [|i l IH]; cbn; auto. destruct (truthy m (Switch i)); cbn; auto. Qed.
Print Assumptions C23_count_switches.
