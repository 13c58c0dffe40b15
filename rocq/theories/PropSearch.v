(** * PropSearch: property C40 (the search for the best circuit size) *)
From Verif Require Import SearchProofs VerifProofs5.
Local Open Scope Z_scope.

(** Whatever the searched function answers and whichever calls run out of time: the search ends; a result comes from a call with that very parameter that finished in time, and
    an empty result means that a call with the greatest parameter and more than half of the longest time limit found nothing or ran out of time. *)
Theorem C40_search : forall A (w : world A) mn mx t mt k, 1 <= mn <= mx -> 1 <= t <= mt ->
  exists r F, (forall fuel, (F <= fuel)%nat -> iterative_search_with_timeout fuel w k mn mx t mt = r) /\
  ((exists k' p t' a, r = Done (S k', (Some a, p)) /\ mn <= p <= mx /\ t' <= mt /\ w_late w k' t' = false /\ w_fun w k' p = Ret (Some a)) \/
   (exists k' k'' t', r = Done (k', (None, mx)) /\ t' <= mt < 2 * t' /\ (w_late w k'' t' = true \/ w_fun w k'' mx = Ret None)) \/
   (r = Failed IndexError /\ exists k' p e, mn <= p <= mx /\ w_fun w k' p = Raise e)).
Proof. intros A w mn mx t mt k R T. destruct (search_spec w mn mx mt R (S (Z.to_nat (mt + 1 - t))) t k ltac:(lia) ltac:(lia)) as (r & F & SR & HF). exists r, F. split; auto.
  destruct SR as [(k' & p & t' & a & E & _ & P & T' & Y1 & Y2)|[(k' & E & H)|(E & k' & p & t' & _ & P & C1 & e & C2)]].
  - left. exists k', p, t', a. auto.
  - right; left. destruct (H ltac:(lia)) as (k'' & t' & _ & T1 & T2 & N). exists k', k'', t'. split; auto. split; [lia|]. exact N.
  - right; right. split; auto. exists k', p, e. auto. Qed.
Print Assumptions C40_search.

(** Any result of the whole optimization is what a call with that parameter returned, and the call with the next smaller parameter found nothing or ran out of time. *)
Theorem C40_result : forall A (w : world A) mn mx t mt fuel a p, optimal_circuit fuel w mn mx t mt = Done (Some a, p) ->
  (exists k, w_fun w k p = Ret (Some a)) /\ exists k, w_late w k mt = true \/ w_fun w k (p - 1) = Ret None.
Proof. intros A w mn mx t mt fuel a p. unfold optimal_circuit. destruct (iterative_search_with_timeout fuel w 0 mn mx t mt) as [[k [[b|] q]]| |] eqn:E; try discriminate.
  destruct (descend fuel w k None b q mt) as [[k' [c r]]| |] eqn:ED; try discriminate. intros [= -> ->]. destruct (search_any w _ _ _ _ _ _ _ _ _ E) as (k0 & Y). split.
  - destruct (descend_any w _ _ _ _ _ _ _ _ _ ED) as [[-> ->]|H]; eauto.
  - clear E Y. revert k b q ED. induction fuel as [|fuel IH]; intros k b q ED; cbn [descend] in ED; [discriminate|].
    destruct (run_cases w k (q - 1) mt) as [(ER & N)|[(ER & N)|[(x & ER & Y)|(ER & C)]]]; rewrite ER in ED; try discriminate; try (injection ED as _ _ <-; exists k; exact N). eapply IH; eauto. Qed.
Print Assumptions C40_result.

(** Without time-outs, for any monotone solvability predicate on sizes 1, 2, ..: nothing is returned iff the greatest size has no solution; otherwise the least solvable size and a solution
    of that size are returned - unless the least size is 1: size 0 is tried then, on which the circuit generators raise, and the search raises IndexError. *)
Theorem C40_least : forall A (w : world A) (sol : Z -> Prop) mn mx t mt, 1 <= mn <= mx -> 1 <= t <= mt ->
  (forall k t', w_late w k t' = false) ->
  (forall k p, 1 <= p -> (exists a, w_fun w k p = Ret (Some a) /\ sol p) \/ (w_fun w k p = Ret None /\ ~ sol p)) -> (forall k, exists e, w_fun w k 0 = Raise e) ->
  (forall p q, 1 <= p <= q -> sol p -> sol q) ->
  exists F, forall fuel, (F <= fuel)%nat ->
  (~ sol mx -> optimal_circuit fuel w mn mx t mt = Done (None, mx)) /\
  (forall p, 2 <= p <= mx -> sol p -> ~ sol (p - 1) -> exists a k, w_fun w k p = Ret (Some a) /\ optimal_circuit fuel w mn mx t mt = Done (Some a, p)) /\
  (sol 1 -> optimal_circuit fuel w mn mx t mt = Failed IndexError).
Proof. intros A w sol mn mx t mt R T NL SOL C0 MONO.
  destruct (search_spec w mn mx mt R (S (Z.to_nat (mt + 1 - t))) t 0 ltac:(lia) ltac:(lia)) as (r & F & SR & HF).
  assert (NO : forall k p t', 1 <= p -> nothing w k p t' -> ~ sol p). { intros k p t' Hp [N|N]; [rewrite NL in N; discriminate|]. destruct (SOL k p Hp) as [(a & E & _)|(_ & X)]; auto. congruence. }
  assert (YS : forall k p t' a, 1 <= p -> yields w k p t' a -> sol p). { intros k p t' a Hp [_ Y]. destruct (SOL k p Hp) as [(b & _ & S)|(E & _)]; auto. congruence. }
  assert (CR : forall k p t', 1 <= p -> ~ crashes w k p t'). { intros k p t' Hp [_ (e & C)]. destruct (SOL k p Hp) as [(b & E & _)|(E & _)]; congruence. }
  destruct SR as [(k' & p & t' & a & -> & _ & P & T' & Y)|[(k' & -> & H)|(-> & k' & p & t' & _ & P & C)]].
  - assert (SP : sol p) by (eapply YS; eauto; lia).
    destruct (descend_spec w None mt 0) with (c := Z.to_nat p) (best := a) (cur := p) (k := S k') as (r2 & (m & (HM & _) & b & HB & HR) & HF2); try lia.
    { intros k b [_ Y0]. destruct (C0 k) as (e & Ee). congruence. }
    cbv zeta in HB, HR, HM. exists (F + S (Z.to_nat p))%nat. intros fuel Hf. unfold optimal_circuit. rewrite HF, HF2 by lia. set (c := p - Z.of_nat m) in *.
    assert (C1 : 1 <= c) by lia.
    assert (SC : 1 <= c -> sol c). { intros Hc. destruct (m =? 0)%nat eqn:EM; [apply Nat.eqb_eq in EM; subst m c; now rewrite Z.sub_0_r|]. eapply YS; eauto. }
    destruct HR as [(-> & N)|[(-> & C)|(_ & l & [=] & _)]].
    + assert (C2 : 2 <= c \/ c = 1) by lia. destruct C2 as [C2|C2].
      * assert (NS : ~ sol (c - 1)) by (eapply NO; [|exact N]; lia). split; [|split].
        -- intros NX. exfalso. apply NX. apply (MONO p mx); auto; lia.
        -- intros q Q SQ NQ. assert (E : q = c). { destruct (Z.lt_trichotomy q c) as [L|[L|L]]; auto; exfalso; [apply NS; apply (MONO q (c - 1)); auto; lia|apply NQ; apply (MONO c (q - 1)); auto; lia]. }
           subst q. exists b. destruct (m =? 0)%nat eqn:EM.
           ++ apply Nat.eqb_eq in EM. exists k'. subst b. unfold c. rewrite EM, Z.sub_0_r. split; [apply Y|auto].
           ++ exists (S k' + m - 1)%nat. split; [apply HB|auto].
        -- intros S1. exfalso. apply NS. apply (MONO 1 (c - 1)); auto; lia.
      * exfalso. destruct N as [N|N]; [rewrite NL in N; discriminate|]. destruct (C0 (S k' + m)%nat) as (e & Ee). replace (c - 1) with 0 in N by lia. congruence.
    + assert (CC : c - 1 <= 0) by (destruct (Z.le_gt_cases (c - 1) 0); auto; exfalso; eapply CR; [|exact C]; lia).
      assert (S1 : sol 1) by (assert (E : c = 1) by lia; rewrite <- E; auto).
      split; [|split]; auto.
      * intros NX. exfalso. apply NX. apply (MONO 1 mx); auto; lia.
      * intros q Q SQ NQ. exfalso. apply NQ. apply (MONO 1 (q - 1)); auto; lia.
  - destruct (H ltac:(lia)) as (k'' & t' & _ & _ & _ & N). assert (NS : ~ sol mx) by (eapply NO; [|exact N]; lia). exists F. intros fuel Hf. unfold optimal_circuit. rewrite HF by lia. split; [|split]; auto.
    + intros p P SP _. exfalso. apply NS. apply (MONO p mx); auto; lia.
    + intros S1. exfalso. apply NS. apply (MONO 1 mx); auto; lia.
  - exfalso. eapply CR; [|exact C]. lia. Qed.
Print Assumptions C40_least.

(** A first parameter of 0 on which nothing is found is tried forever (0 doubled stays 0), and so is a time limit of 0 that no call meets. *)
Theorem C40_stuck : forall A (w : world A) mx t mt, 0 < mx -> t <= mt -> (forall k p t', p <= 0 -> w_late w k t' = true \/ w_fun w k p = Ret None) ->
  forall fuel k, iterative_search_with_timeout fuel w k 0 mx t mt = Unfinished.
Proof. intros A w mx t mt M T N fuel k. apply search_stuck; auto; lia. Qed.
Print Assumptions C40_stuck.
Theorem C40_stuck_timeout : forall A (w : world A) mn mx mt, 1 <= mn <= mx -> 0 <= mt -> (forall k, w_late w k 0 = true) ->
  forall fuel k, iterative_search_with_timeout fuel w k mn mx 0 mt = Unfinished.
Proof. intros A w mn mx mt R T N fuel k. apply search_stuck_timeout; auto. intros k' p. left. apply N. Qed.
Print Assumptions C40_stuck_timeout.

Definition demo_world (least : Z) : world Z := mkWorld (fun _ p => if (p <? 1) then Raise AssertionError else Ret (if least <=? p then Some p else None)) (fun _ _ => false).
Example C40_nonvacuous : optimal_circuit 100 (demo_world 3) 1 10 1 4 = Done (Some 3, 3) /\ optimal_circuit 100 (demo_world 11) 1 10 1 4 = Done (None, 10) /\
  optimal_circuit 100 (demo_world 1) 1 10 1 4 = Failed IndexError /\
  (forall k p, 1 <= p -> (exists a, w_fun (demo_world 3) k p = Ret (Some a) /\ 3 <= p) \/ (w_fun (demo_world 3) k p = Ret None /\ ~ 3 <= p)) /\ (forall k, exists e, w_fun (demo_world 3) k 0 = Raise e).
Proof. split; [reflexivity|]. split; [reflexivity|]. split; [reflexivity|]. split; [|intros k; eexists; reflexivity]. intros k p Hp. cbn [demo_world w_fun]. destruct (Z.ltb_spec p 1); [lia|]. destruct (Z.leb_spec 3 p); [left; exists p; auto|right; split; auto; lia]. Qed.
