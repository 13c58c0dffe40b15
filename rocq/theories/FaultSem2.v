(** * FaultSem2: execution orders of a circuit, histories of calls *)
From Verif Require Export FaultSem.
Local Open Scope nat_scope.

(** two orders of the same circuit: neighbouring CNOTs without a common qubit may be exchanged *)
Inductive reorder : list (nat * nat) -> list (nat * nat) -> Prop :=
| reorder_refl l : reorder l l
| reorder_swap a p q b : fst p <> fst q -> fst p <> snd q -> snd p <> fst q -> snd p <> snd q -> reorder (a ++ p :: q :: b) (a ++ q :: p :: b)
| reorder_trans l1 l2 l3 : reorder l1 l2 -> reorder l2 l3 -> reorder l1 l3.
Lemma reorder_ok n l l' : reorder l l' -> cn_ok n l -> cn_ok n l'.
Proof. induction 1; auto. intros HF. apply Forall_app in HF as [A B]. apply Forall_cons_iff in B as [P B]. apply Forall_cons_iff in B as [Q B]. apply Forall_app. split; auto. Qed.
Lemma reorder_sym l l' : reorder l l' -> reorder l' l.
Proof. induction 1; [apply reorder_refl|apply reorder_swap; congruence|eapply reorder_trans; eauto]. Qed.
Lemma reorder_length l l' : reorder l l' -> length l' = length l.
Proof. induction 1 as [l|a p q b|l1 l2 l3 R1 I1 R2 I2]; auto; [now rewrite !app_length|congruence]. Qed.
Lemma reorder_nil l l' : reorder l l' -> l <> [] -> l' <> [].
Proof. induction 1; auto. intros _ E. destruct a; discriminate. Qed.
Lemma cxv_comm n x c t c' t' : length x = n -> t < n -> t' < n -> c <> t' -> t <> c' -> t <> t' -> cxv c t (cxv c' t' x) = cxv c' t' (cxv c t x).
Proof. intros L Ht Ht' A B C. apply nth_ext with (d := false) (d' := false); [now rewrite !cxv_length|]. intros k _. rewrite !nth_cxv by (rewrite ?cxv_length; lia).
  repeat match goal with |- context [?a =? ?b] => destruct (Nat.eqb_spec a b); subst end; try congruence; auto. Qed.
Lemma prop_swap n x e p q : fst p < n -> snd p < n -> fst q < n -> snd q < n -> fst p <> fst q -> fst p <> snd q -> snd p <> fst q -> snd p <> snd q -> length e = n ->
  prop1 x (prop1 x e p) q = prop1 x (prop1 x e q) p.
Proof. intros. unfold prop1. destruct x; apply (cxv_comm n); auto. Qed.
Lemma reorder_prop n x l l' : reorder l l' -> cn_ok n l -> forall e, length e = n -> fold_left (prop1 x) l e = fold_left (prop1 x) l' e.
Proof. induction 1 as [l|a p q b|l1 l2 l3 R1 I1 R2 I2]; intros CN e L; auto.
  - rewrite !fold_left_app. cbn [fold_left]. f_equal. apply Forall_app in CN as [_ CN]. apply Forall_cons_iff in CN as [(P1 & P2 & _) CN]. apply Forall_cons_iff in CN as [(Q1 & Q2 & _) _]. apply (prop_swap n); auto. now rewrite prop_length.
  - rewrite I1 by auto. apply I2; auto. eapply reorder_ok; eauto. Qed.
Lemma reorder_run n l l' : reorder l l' -> cn_ok n l -> forall psi, state_eq n (cx_run l psi) (cx_run l' psi).
Proof. induction 1 as [l|a p q b H1 H2 H3 H4|l1 l2 l3 R1 I1 R2 I2]; intros CN psi v Hv; auto.
  - unfold cx_run. rewrite !map_app, !fold_left_app. cbn [map fold_left]. apply (fold_ext (map gcx b) n); auto. apply Forall_app in CN as [_ CN]. apply Forall_cons_iff in CN as [(P1 & P2 & _) CN]. apply Forall_cons_iff in CN as [(Q1 & Q2 & _) _].
    intros w Hw. cbn [gcx apply_gate]. f_equal. apply (cxv_comm n); auto.
  - rewrite I1 by auto. apply I2; auto. eapply reorder_ok; eauto. Qed.
(** the list of faults does not depend on the order *)
Lemma single_app n x a b e : In e (single_faults n x (a ++ b)) <-> (exists a1 p a2, a = a1 ++ p :: a2 /\ e = fold_left (prop1 x) (a2 ++ b) (unitv n (source x p))) \/ In e (single_faults n x b).
Proof. induction a as [|p a IH]; cbn [app single_faults In].
  - split; auto. intros [(a1 & p & a2 & E & _)|H]; auto. destruct a1; discriminate.
  - rewrite IH. cbn [propagate_error]. fold (source x p). split.
    + intros [<-|[(a1 & p' & a2 & -> & ->)|H]]; auto; left; [exists [], p, a|exists (p :: a1), p', a2]; auto.
    + intros [([|p1 a1] & p' & a2 & E & ->)|H]; auto; injection E as E1 E2; subst; auto. right. left. exists a1, p', a2. auto. Qed.
Lemma reorder_single_half n x l l' e : reorder l l' -> cn_ok n l -> In e (single_faults n x l) -> In e (single_faults n x l').
Proof. induction 1 as [l|a p q b H1 H2 H3 H4|l1 l2 l3 R1 I1 R2 I2]; intros CN H; auto.
  - apply single_app in H as [(a1 & r & a2 & -> & ->)|H].
    + apply single_app. left. exists a1, r, a2. split; auto. apply (reorder_prop n x); [|apply Forall_app in CN as [CA CB]; apply Forall_app in CA as [_ CA]; apply Forall_cons_iff in CA as [_ CA]; apply Forall_app; auto|apply unitv_length].
      now apply reorder_swap.
    + apply single_app. right. apply Forall_app in CN as [_ CN]. apply Forall_cons_iff in CN as [(P1 & P2 & P3) CN]. apply Forall_cons_iff in CN as [(Q1 & Q2 & Q3) _].
      assert (U : forall r r', fst r < n -> snd r < n -> source x r' <> source x r -> prop1 x (unitv n (source x r')) r = unitv n (source x r')) by (intros r r' A B D; unfold prop1, source in *; destruct x; apply unit_cxv; auto).
      assert (SP : source x p <> source x q) by (unfold source; destruct x; auto).
      cbn [single_faults In propagate_error fold_left] in *. fold (source x p) in *. fold (source x q) in *. destruct H as [<-|[<-|H]].
      * right. left. rewrite U; auto.
      * left. rewrite U; auto.
      * auto.
  - apply I2; auto. eapply reorder_ok; eauto. Qed.
Lemma reorder_single n x l l' e : reorder l l' -> cn_ok n l -> (In e (single_faults n x l) <-> In e (single_faults n x l')).
Proof. intros R CN. split; [now apply reorder_single_half|]. apply reorder_single_half; [now apply reorder_sym|eapply reorder_ok; eauto]. Qed.

(** ** histories: any sequence of calls compute_fault_set(j, x_errors, reduce) on a new object; calls that raise change nothing *)
Definition call_one lin opt s (kk : cache * cache) (c : bool * nat * bool) : cache * cache :=
  let '(x, j, reduce) := c in
  match compute_fault_set lin opt s x reduce j (cache_of x kk) with
  | Ret (k', _) => if x then (k', snd kk) else (fst kk, k')
  | Raise _ => kk
  end.
Definition state_after lin opt s (hist : list (bool * nat * bool)) : cache * cache := fold_left (call_one lin opt s) hist (cache0 s, cache0 s).
Lemma state_after_inv lin opt s nodes hist : optimizer_ok 1 opt -> spc_ok s -> cnots_of (drop_front [] (sp_circ s)) = Ret nodes -> kinv2 lin s nodes (state_after lin opt s hist).
Proof. intros OK SO EN. unfold state_after. assert (G : forall hist kk, kinv2 lin s nodes kk -> kinv2 lin s nodes (fold_left (call_one lin opt s) hist kk)); [|apply G, kinv2_init].
  clear hist. induction hist as [|[[x j] r] hist IH]; intros kk ((IX & DX) & (IZ & DZ)); cbn [fold_left]; [split; split; auto|]. apply IH. unfold call_one. destruct (compute_fault_set lin opt s x r j (cache_of x kk)) as [[k' F]|] eqn:E; [|split; split; auto].
  pose proof (max_weight_pos s x SO) as MW. pose proof (stabs_wf s x SO) as WS.
  destruct x; cbn [cache_of] in E.
  - destruct (compute_inv lin opt s true nodes OK WS MW EN _ _ _ _ _ IX E) as (I1 & _). destruct (compute_down lin opt s true _ _ _ _ _ DX E) as (D1 & _). split; split; auto.
  - destruct (compute_inv lin opt s false nodes OK WS MW EN _ _ _ _ _ IZ E) as (I1 & _). destruct (compute_down lin opt s false _ _ _ _ _ DZ E) as (D1 & _). split; split; auto. Qed.
