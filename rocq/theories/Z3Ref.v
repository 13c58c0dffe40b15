(** * Z3Ref: a brute-force solver meeting the contracts of Z3Model (so that the contracts can be met), and consequences of the contracts *)
From Verif Require Export Z3Model.
Local Open Scope nat_scope.

Section Ref.
Context {V W : Type} (Vd : forall x y : V, {x = y} + {x <> y}) (Wd : forall x y : W, {x = y} + {x <> y}).
Notation expr := (expr V W).
Lemma expr_ind' (P : expr -> Prop) :
  (forall v, P (EVar v)) -> (forall b, P (ELit b)) -> (forall e, P e -> P (ENot e)) ->
  (forall a b, P a -> P b -> P (EXor a b)) -> (forall a b, P a -> P b -> P (EIff a b)) -> (forall a b, P a -> P b -> P (EImp a b)) ->
  (forall l, Forall P l -> P (EAnd l)) -> (forall l, Forall P l -> P (EOr l)) -> (forall l k, Forall P l -> P (EPbEq l k)) ->
  (forall l k, Forall P l -> P (EPbLe l k)) -> (forall l k, Forall P l -> P (EPbGe l k)) ->
  (forall w k, P (EBvEq w k)) -> (forall w w', P (EBvNe w w')) -> (forall w k, P (EBvLt w k)) -> forall e, P e.
Proof. intros H1 H2 H3 H4 H5 H6 H7 H8 H9 H10 H11 H12 H13 H14.
  refine (fix IH (e : expr) : P e := _).
  pose (go := fix go (l : list expr) : Forall P l := match l with [] => Forall_nil P | e :: l' => Forall_cons e (IH e) (go l') end).
  refine (match e with
  | EVar v => H1 v | ELit b => H2 b | ENot e => H3 e (IH e) | EXor a b => H4 a b (IH a) (IH b) | EIff a b => H5 a b (IH a) (IH b) | EImp a b => H6 a b (IH a) (IH b)
  | EAnd l => H7 l (go l) | EOr l => H8 l (go l) | EPbEq l k => H9 l k (go l) | EPbLe l k => H10 l k (go l) | EPbGe l k => H11 l k (go l)
  | EBvEq w k => H12 w k | EBvNe w w' => H13 w w' | EBvLt w k => H14 w k end). Qed.
Fixpoint bvs (e : expr) : list V :=
  match e with
  | EVar v => [v] | ELit _ => [] | ENot e => bvs e | EXor a b | EIff a b | EImp a b => bvs a ++ bvs b
  | EAnd l | EOr l | EPbEq l _ | EPbLe l _ | EPbGe l _ => flat_map bvs l
  | EBvEq _ _ | EBvNe _ _ | EBvLt _ _ => []
  end.
Fixpoint wvs (e : expr) : list W :=
  match e with
  | EVar v => [] | ELit _ => [] | ENot e => wvs e | EXor a b | EIff a b | EImp a b => wvs a ++ wvs b
  | EAnd l | EOr l | EPbEq l _ | EPbLe l _ | EPbGe l _ => flat_map wvs l
  | EBvEq w _ => [w] | EBvNe w w' => [w; w'] | EBvLt w _ => [w]
  end.
Lemma occurs_bvs v e : In v (bvs e) -> occurs v e.
Proof. revert e. apply (expr_ind' (fun e => In v (bvs e) -> occurs v e)); cbn [bvs occurs]; auto; try (intros a b A B H; apply in_app_iff in H; tauto); try tauto.
  - intros u [H|[]]; auto.
  - intros l F. induction F as [|e l H _ IH]; cbn; auto. intros Hin. apply in_app_iff in Hin. tauto.
  - intros l F. induction F as [|e l H _ IH]; cbn; auto. intros Hin. apply in_app_iff in Hin. tauto.
  - intros l k F. induction F as [|e l H _ IH]; cbn; auto. intros Hin. apply in_app_iff in Hin. tauto.
  - intros l k F. induction F as [|e l H _ IH]; cbn; auto. intros Hin. apply in_app_iff in Hin. tauto.
  - intros l k F. induction F as [|e l H _ IH]; cbn; auto. intros Hin. apply in_app_iff in Hin. tauto. Qed.
Lemma bvs_occurs v e : occurs v e -> In v (bvs e).
Proof. revert e. apply (expr_ind' (fun e => occurs v e -> In v (bvs e))); cbn [bvs occurs]; auto; try (intros a b A B H; apply in_app_iff; tauto); try tauto.
  - intros u H; left; auto.
  - intros l F. induction F as [|e l H _ IH]; cbn; auto. intros Hin. apply in_app_iff. tauto.
  - intros l F. induction F as [|e l H _ IH]; cbn; auto. intros Hin. apply in_app_iff. tauto.
  - intros l k F. induction F as [|e l H _ IH]; cbn; auto. intros Hin. apply in_app_iff. tauto.
  - intros l k F. induction F as [|e l H _ IH]; cbn; auto. intros Hin. apply in_app_iff. tauto.
  - intros l k F. induction F as [|e l H _ IH]; cbn; auto. intros Hin. apply in_app_iff. tauto. Qed.
Lemma eval_ext a b e : (forall v, In v (bvs e) -> a_bool a v = a_bool b v) -> (forall w, In w (wvs e) -> a_bv a w = a_bv b w) -> eval a e = eval b e.
Proof. revert e. apply (expr_ind' (fun e => (forall v, In v (bvs e) -> a_bool a v = a_bool b v) -> (forall w, In w (wvs e) -> a_bv a w = a_bv b w) -> eval a e = eval b e));
  cbn [bvs wvs eval].
  1: intros v H _; apply H; left; auto.
  1: auto.
  1: intros e IH H1 H2; now rewrite IH.
  1,2,3: intros x y IH1 IH2 H1 H2; rewrite IH1, IH2; auto; intros; first [apply H1|apply H2]; apply in_app_iff; auto.
  6: intros w k H1 H2; now rewrite (H2 w (or_introl eq_refl)).
  6: intros w w' H1 H2; now rewrite (H2 w (or_introl eq_refl)), (H2 w' (or_intror (or_introl eq_refl))).
  6: intros w k H1 H2; now rewrite (H2 w (or_introl eq_refl)).
  all: intros l.
  1: intros F H1 H2; induction F as [|e l H _ IH]; auto; cbn [forallb flat_map] in *; rewrite H, IH; auto; intros; first [apply H1|apply H2]; apply in_app_iff; auto.
  1: intros F H1 H2; induction F as [|e l H _ IH]; auto; cbn [existsb flat_map] in *; rewrite H, IH; auto; intros; first [apply H1|apply H2]; apply in_app_iff; auto.
  all: intros k F H1 H2; assert (E : filter (eval a) l = filter (eval b) l) by
    (clear k; induction F as [|e l H _ IH]; auto; cbn [filter flat_map] in *; rewrite H, IH; auto; intros; first [apply H1|apply H2]; apply in_app_iff; auto); now rewrite E. Qed.

(** assignments to finitely many variables *)
Definition upd_b (m : z3model V W) (v : V) (b : bool) := mkZm (fun u => if Vd u v then Some b else zm_bool m u) (zm_bv m).
Definition upd_w (m : z3model V W) (w : W) (k : nat) := mkZm (zm_bool m) (fun u => if Wd u w then Some k else zm_bv m u).
Definition empty_model : z3model V W := mkZm (fun _ => None) (fun _ => None).
Fixpoint models_w (width : nat) (ws : list W) : list (z3model V W) :=
  match ws with [] => [empty_model] | w :: ws' => flat_map (fun m => map (upd_w m w) (seq 0 width)) (models_w width ws') end.
Fixpoint models (width : nat) (ws : list W) (vs : list V) : list (z3model V W) :=
  match vs with [] => models_w width ws | v :: vs' => flat_map (fun m => [upd_b m v false; upd_b m v true]) (models width ws vs') end.
Definition all_models (width : nat) (fs : list expr) := models width (nodup Wd (flat_map wvs fs)) (nodup Vd (flat_map bvs fs)).
Definition satb (fs : list expr) (m : z3model V W) : bool := forallb (eval (completion m)) fs.
Definition ref_solve (width : nat) (fs : list expr) : option (z3model V W) := find (satb fs) (all_models width fs).
Fixpoint best_of (objs : list expr) (b : z3model V W) (l : list (z3model V W)) : z3model V W :=
  match l with [] => b | m :: l' => best_of objs (if count (eval (completion m)) objs <? count (eval (completion b)) objs then m else b) l' end.
Definition ref_opt (width : nat) (fs objs : list expr) : z3model V W :=
  match filter (satb fs) (models width (nodup Wd (flat_map wvs (fs ++ objs))) (nodup Vd (flat_map bvs fs))) with [] => empty_model | m :: l => best_of objs m l end.

Lemma models_w_spec width ws (a : asg V W) : 0 < width -> (forall w, a_bv a w < width) ->
  exists m, In m (models_w width ws) /\ forall w, In w ws -> zm_bv m w = Some (a_bv a w).
Proof. intros W0 B. induction ws as [|w ws (m & Hm & E)]; cbn [models_w].
  - exists empty_model. split; [left; auto|intros w []].
  - exists (upd_w m w (a_bv a w)). split.
    + apply in_flat_map. exists m. split; auto. apply in_map. apply in_seq. specialize (B w). lia.
    + intros u Hu. cbn. destruct (Wd u w) as [->|N]; auto. destruct Hu as [Hu|Hu]; [congruence|auto]. Qed.
Lemma models_spec width ws vs (a : asg V W) : 0 < width -> (forall w, a_bv a w < width) ->
  exists m, In m (models width ws vs) /\ (forall w, In w ws -> zm_bv m w = Some (a_bv a w)) /\ forall v, In v vs -> zm_bool m v = Some (a_bool a v).
Proof. intros W0 B. induction vs as [|v vs (m & Hm & E & F)]; cbn [models].
  - destruct (models_w_spec width ws a W0 B) as (m & Hm & E). exists m. repeat split; auto. intros v [].
  - exists (upd_b m v (a_bool a v)). split; [|split].
    + apply in_flat_map. exists m. split; auto. destruct (a_bool a v); cbn; auto.
    + auto.
    + intros u Hu. cbn. destruct (Vd u v) as [->|N]; auto. destruct Hu as [Hu|Hu]; [congruence|auto]. Qed.
Lemma models_w_ok width ws m : 0 < width -> In m (models_w width ws) -> (forall w, a_bv (completion m) w < width) /\ (forall v, zm_bool m v = None).
Proof. intros W0. revert m. induction ws as [|w ws IH]; intros m; cbn [models_w].
  - intros [<-|[]]. split; auto.
  - intros H. apply in_flat_map in H as (m' & Hm' & H). apply in_map_iff in H as (k & <- & Hk). apply in_seq in Hk. destruct (IH m' Hm') as [A B]. split; auto.
    intros u. cbn. destruct (Wd u w); [lia|]. apply A. Qed.
Lemma models_ok width ws vs m : 0 < width -> In m (models width ws vs) -> (forall w, a_bv (completion m) w < width) /\ (forall v, zm_bool m v <> None -> In v vs).
Proof. intros W0. revert m. induction vs as [|v vs IH]; intros m; cbn [models].
  - intros H. destruct (models_w_ok width ws m W0 H) as [A B]. split; auto. intros v Hv. now rewrite B in Hv.
  - intros H. apply in_flat_map in H as (m' & Hm' & H). destruct (IH m' Hm') as [A B]. 
    assert (E : exists b, m = upd_b m' v b) by (destruct H as [<-|[<-|[]]]; eauto). destruct E as (b & ->). split; [exact A|].
    intros u. cbn. destruct (Vd u v) as [->|N]; [left; auto|right; auto]. Qed.
Lemma satb_ext fs (a : asg V W) m ws : (forall w, In w (flat_map wvs fs) -> In w ws) -> (forall w, In w ws -> zm_bv m w = Some (a_bv a w)) -> (forall v, In v (flat_map bvs fs) -> zm_bool m v = Some (a_bool a v)) ->
  forall f, In f fs -> eval (completion m) f = eval a f.
Proof. intros I E F f Hf. apply eval_ext.
  - intros v Hv. cbn. rewrite F; auto. apply in_flat_map. eauto.
  - intros w Hw. cbn. rewrite E; auto. apply I. apply in_flat_map. eauto. Qed.
Theorem ref_solve_ok width fs : 0 < width -> answer_ok width fs (ref_solve width fs).
Proof. intros W0. unfold ref_solve. destruct (find _ _) as [m|] eqn:E; cbn.
  - apply find_some in E as [Hm S]. destruct (models_ok width _ _ m W0 Hm) as [A B]. split; [apply forallb_forall; auto|]. split; auto.
    intros v Hv. apply B, nodup_In in Hv. apply in_flat_map in Hv as (f & Hf & Hv). exists f. split; auto. now apply occurs_bvs.
  - intros a B. destruct (models_spec width (nodup Wd (flat_map wvs fs)) (nodup Vd (flat_map bvs fs)) a W0 B) as (m & Hm & F1 & F2).
    pose proof (find_none _ _ E m Hm) as S. unfold satb in S. 
    assert (X : existsb (fun f => negb (eval (completion m) f)) fs = true).
    { clear - S. induction fs as [|f fs IH]; [discriminate|]. cbn in *. destruct (eval (completion m) f); cbn in *; auto. }
    apply existsb_exists in X as (f & Hf & X). exists f. split; auto. apply negb_true_iff in X. rewrite <- X. symmetry. apply (satb_ext fs a m (nodup Wd (flat_map wvs fs))); auto; [intros w Hw; now apply nodup_In|intros v Hv; apply F2; now apply nodup_In]. Qed.
Lemma best_of_in objs l : forall b, In (best_of objs b l) (b :: l).
Proof. induction l as [|m l IH]; intros b; cbn [best_of]; [left; auto|]. destruct (_ <? _); destruct (IH m), (IH b); cbn; auto. Qed.
Lemma best_of_le objs l : forall b m, In m (b :: l) -> count (eval (completion (best_of objs b l))) objs <= count (eval (completion m)) objs.
Proof. induction l as [|m l IH]; intros b m' H; cbn [best_of]; [destruct H as [H|[]]; subst; auto|]. destruct (_ <? _) eqn:E.
  - apply Nat.ltb_lt in E. destruct H as [H|[H|H]]; subst; try (apply IH; cbn; auto; fail). specialize (IH m m (or_introl eq_refl)). lia.
  - apply Nat.ltb_ge in E. destruct H as [H|[H|H]]; subst; try (apply IH; cbn; auto; fail). specialize (IH b b (or_introl eq_refl)). lia. Qed.
(** when every objective variable also occurs in the formulas *)
Theorem ref_opt_ok width fs objs : 0 < width -> (forall v o, In o objs -> In v (bvs o) -> In v (flat_map bvs fs)) ->
  (exists a, (forall w, a_bv a w < width) /\ forall f, In f fs -> eval a f = true) -> optimum_ok width fs objs (ref_opt width fs objs).
Proof. intros W0 OV (a0 & B0 & S0).
  assert (C : forall a, (forall w, a_bv a w < width) -> (forall f, In f fs -> eval a f = true) ->
     exists m, In m (filter (satb fs) (models width (nodup Wd (flat_map wvs (fs ++ objs))) (nodup Vd (flat_map bvs fs)))) /\ count (eval (completion m)) objs = count (eval a) objs).
  { intros a B S. destruct (models_spec width (nodup Wd (flat_map wvs (fs ++ objs))) (nodup Vd (flat_map bvs fs)) a W0 B) as (m & Hm & F1 & F2). setoid_rewrite nodup_In in F1. setoid_rewrite nodup_In in F2. exists m. split.
    - apply filter_In. split; auto. apply forallb_forall. intros f Hf. rewrite (satb_ext fs a m (flat_map wvs (fs ++ objs))); auto. intros w Hw. rewrite flat_map_app. apply in_app_iff. auto.
    - unfold count. f_equal. apply filter_ext_in. intros o Ho. apply eval_ext.
      + intros v Hv. cbn. rewrite F2; eauto.
      + intros w Hw. cbn. rewrite F1; auto. apply in_flat_map. exists o. split; auto. apply in_app_iff. auto. }
  unfold ref_opt. destruct (C a0 B0 S0) as (m0 & Hm0 & _). destruct (filter _ _) as [|m l] eqn:EF; [destruct Hm0|]. rewrite <- EF in *.
  set (R := best_of objs m l). assert (HR : In R (m :: l)) by apply best_of_in. split.
  - rewrite <- EF in HR. apply filter_In in HR as [HR S]. destruct (models_ok width _ _ R W0 HR) as [A B]. cbn. split; [apply forallb_forall; auto|]. split; auto.
    intros v Hv. apply B, nodup_In in Hv. apply in_flat_map in Hv as (f & Hf & Hv). exists f. split; auto. now apply occurs_bvs.
  - intros a B S. destruct (C a B S) as (x & Hx & <-). rewrite EF in Hx. now apply best_of_le. Qed.
Theorem ref_solver_ok width : 0 < width -> solver_ok width (ref_solve width).
Proof. intros W0 fs. now apply ref_solve_ok. Qed.
Theorem ref_optimizer_ok width : 0 < width -> optimizer_ok width (ref_opt width).
Proof. intros W0 fs objs OV EX. apply ref_opt_ok; auto. intros v o Ho Hv. destruct (OV v o Ho (occurs_bvs _ _ Hv)) as (f & Hf & O). apply in_flat_map. exists f. split; auto. now apply bvs_occurs. Qed.
End Ref.
