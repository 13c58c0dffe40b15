(** * SearchProofs: the geometric search and the descent *)
From Verif Require Export SearchModel.
From Coq Require Export Lia.
Local Open Scope Z_scope.

Section S.
Context {A : Type} (w : world A).
(** call k with parameter p and time limit t returned nothing: no solution, or too late *)
Definition nothing (k : nat) (p t : Z) : Prop := w_late w k t = true \/ w_fun w k p = Ret None.
Definition yields (k : nat) (p t : Z) (a : A) : Prop := w_late w k t = false /\ w_fun w k p = Ret (Some a).
Definition crashes (k : nat) (p t : Z) : Prop := w_late w k t = false /\ exists e, w_fun w k p = Raise e.
Lemma run_cases k p t : (run_with_timeout w k p t = Ret Timeout /\ nothing k p t) \/ (run_with_timeout w k p t = Ret NoSol /\ nothing k p t) \/
  (exists a, run_with_timeout w k p t = Ret (Found a) /\ yields k p t a) \/ (run_with_timeout w k p t = Raise IndexError /\ crashes k p t).
Proof. unfold run_with_timeout, nothing, yields, crashes. destruct (w_late w k t); auto. destruct (w_fun w k p) as [[a|]|e]; auto; right; right; [left|right]; eauto. Qed.

(** the parameters tried, in order *)
Fixpoint param (cur max_param : Z) (i : nat) : Z := match i with O => cur | S i' => param (Z.min (2 * cur) max_param) max_param i' end.
Lemma param_range i : forall cur mx, 1 <= cur <= mx -> 1 <= param cur mx i <= mx.
Proof. induction i as [|i IH]; intros cur mx H; cbn [param]; auto. apply IH. lia. Qed.

(** one sweep: finitely many calls, all but the last of which return nothing *)
Definition inner_res (k : nat) (cur mx t : Z) (r : outcome (nat * option (A * Z))) : Prop :=
  exists m, (forall i, (i < m)%nat -> nothing (k + i) (param cur mx i) t) /\
    ((exists a, r = Done (S (k + m), Some (a, param cur mx m)) /\ yields (k + m) (param cur mx m) t a) \/
     (r = Failed IndexError /\ crashes (k + m) (param cur mx m) t) \/
     (r = Done (S (k + m), None) /\ param cur mx m = mx /\ nothing (k + m) mx t)).
Lemma inner_spec mx t : forall c k cur, (Z.to_nat (mx - cur) < c)%nat -> 1 <= cur <= mx -> exists r, inner_res k cur mx t r /\ forall fuel, (c <= fuel)%nat -> inner_search fuel w k cur mx t = r.
Proof. induction c as [|c IH]; intros k cur HC R; [lia|].
  assert (ST : forall fuel, inner_search (S fuel) w k cur mx t = match run_with_timeout w k cur t with Raise e => Failed e | Ret (Found a) => Done (S k, Some (a, cur))
    | Ret _ => if cur =? mx then Done (S k, None) else inner_search fuel w (S k) (Z.min (2 * cur) mx) mx t end).
  { intros fuel. cbn [inner_search]. replace (mx <? cur) with false by (symmetry; apply Z.ltb_ge; lia). reflexivity. }
  assert (NXT : nothing k cur t -> run_with_timeout w k cur t = Ret Timeout \/ run_with_timeout w k cur t = Ret NoSol -> exists r, inner_res k cur mx t r /\ forall fuel, (S c <= fuel)%nat -> inner_search fuel w k cur mx t = r).
  { intros N RN. destruct (Z.eqb_spec cur mx) as [E|E].
    - subst cur. exists (Done (S k, None)). split; [|intros [|fuel] Hf; [lia|]; rewrite ST; destruct RN as [RN | RN]; rewrite RN, ?Z.eqb_refl; auto].
      exists 0%nat. split; [lia|]. right; right. rewrite Nat.add_0_r. cbn [param]. auto.
    - destruct (IH (S k) (Z.min (2 * cur) mx)) as (r & (m & HM & HR) & HF); try lia. exists r. split; [|intros [|fuel] Hf; [lia|]; rewrite ST; rewrite HF by lia; destruct RN as [-> | ->]; (destruct (Z.eqb_spec cur mx); [lia|auto])].
      exists (S m). split.
      + intros [|i] Hi; [rewrite Nat.add_0_r; auto|]. rewrite Nat.add_succ_r. apply HM. lia.
      + cbn [param]. rewrite Nat.add_succ_r. exact HR. }
  destruct (run_cases k cur t) as [(E & N)|[(E & N)|[(a & E & Y)|(E & C)]]].
  - apply NXT; auto.
  - apply NXT; auto.
  - exists (Done (S k, Some (a, cur))). split; [|intros [|fuel] Hf; [lia|]; now rewrite ST, E]. exists 0%nat. split; [lia|]. left. exists a. rewrite Nat.add_0_r. auto.
  - exists (Failed IndexError). split; [|intros [|fuel] Hf; [lia|]; now rewrite ST, E]. exists 0%nat. split; [lia|]. right; left. rewrite Nat.add_0_r. auto. Qed.

(** the whole search *)
Definition search_res (mn mx : Z) (t mt : Z) (k : nat) (r : outcome (nat * (option A * Z))) : Prop :=
  (exists k' p t' a, r = Done (S k', (Some a, p)) /\ (k <= k')%nat /\ mn <= p <= mx /\ t' <= mt /\ yields k' p t' a) \/
  (exists k', r = Done (k', (None, mx)) /\ (t <= mt -> exists k'' t', (k <= k'' < k')%nat /\ t <= t' <= mt /\ mt < 2 * t' /\ nothing k'' mx t')) \/
  (r = Failed IndexError /\ exists k' p t', (k <= k')%nat /\ mn <= p <= mx /\ crashes k' p t').
Lemma param_ge i : forall cur mx, 1 <= cur <= mx -> cur <= param cur mx i.
Proof. induction i as [|i IH]; intros cur mx H; cbn [param]; [lia|]. specialize (IH (Z.min (2 * cur) mx) mx). lia. Qed.
Lemma search_spec mn mx mt : 1 <= mn <= mx -> forall c t k, (Z.to_nat (mt + 1 - t) < c)%nat -> 1 <= t -> exists r F, search_res mn mx t mt k r /\ forall fuel, (F <= fuel)%nat -> iterative_search_with_timeout fuel w k mn mx t mt = r.
Proof. intros R. induction c as [|c IH]; intros t k HC T; [lia|].
  assert (ST : forall fuel, iterative_search_with_timeout (S fuel) w k mn mx t mt = if mt <? t then Done (k, (None, mx)) else match inner_search (S fuel) w k mn mx t with
      | Done (k', Some (a, p)) => Done (k', (Some a, p)) | Done (k', None) => iterative_search_with_timeout fuel w k' mn mx (2 * t) mt | Failed e => Failed e | Unfinished => Unfinished end) by reflexivity.
  destruct (Z.ltb_spec mt t) as [L|L].
  - exists (Done (k, (None, mx))), 1%nat. split; [|intros [|fuel] Hf; [lia|]; rewrite ST; auto]. right; left. exists k. split; auto. lia.
  - destruct (inner_spec mx t (S (Z.to_nat (mx - mn))) k mn ltac:(lia) R) as (r & (m & HM & HR) & HF). pose proof (param_range m mn mx R) as PR. pose proof (param_ge m mn mx R) as PG.
    destruct HR as [(a & -> & Y)|[(-> & C)|(-> & PM & N)]].
    + exists (Done (S (k + m), (Some a, param mn mx m))), (S (S (Z.to_nat (mx - mn)))). split; [|intros [|fuel] Hf; [lia|]; rewrite ST, HF by lia; auto].
      left. exists (k + m)%nat, (param mn mx m), t, a. repeat (split; [first [reflexivity|lia]|]). exact Y.
    + exists (Failed IndexError), (S (S (Z.to_nat (mx - mn)))). split; [|intros [|fuel] Hf; [lia|]; rewrite ST, HF by lia; auto].
      right; right. split; auto. exists (k + m)%nat, (param mn mx m), t. repeat (split; [lia|]). auto.
    + destruct (IH (2 * t) (S (k + m)) ltac:(lia) ltac:(lia)) as (r & F & SR & HF2). exists r, (S (F + S (Z.to_nat (mx - mn)))). split; [|intros [|fuel] Hf; [lia|]; rewrite ST, HF, HF2 by lia; auto].
      destruct SR as [(k' & p & t' & a & -> & H1 & H2 & H3 & H4)|[(k' & -> & H)|(-> & k' & p & t' & H1 & H2 & H3)]].
      * left. exists k', p, t', a. repeat (split; [first [reflexivity|lia]|]). exact H4.
      * right; left. exists k'. split; auto. intros _. destruct (Z.le_gt_cases (2 * t) mt) as [L2|L2].
        -- destruct (H L2) as (k'' & t' & A1 & A2 & A3 & A4). exists k'', t'. repeat (split; [lia|]). auto.
        -- exists (k + m)%nat, t. split; [|split; [|split]]; try lia; auto. 
           split; [lia|]. destruct (Nat.lt_ge_cases (k + m) k') as [|G]; auto. exfalso.
           specialize (HF2 (S F) ltac:(lia)). cbn [iterative_search_with_timeout] in HF2. replace (mt <? 2 * t) with true in HF2 by (symmetry; apply Z.ltb_lt; lia). injection HF2. intros E. lia.
      * right; right. split; auto. exists k', p, t'. repeat (split; [lia|]). auto. Qed.

(** the descent *)
Definition descend_res (bottom : Z) (low : option Z) (best : A) (cur mt : Z) (k : nat) (r : outcome (nat * (A * Z))) : Prop :=
  exists m, let c := cur - Z.of_nat m in (bottom < c /\ forall l, low = Some l -> m = 0%nat \/ l < c) /\
    (exists b, (if (m =? 0)%nat then b = best else yields (k + m - 1) c mt b) /\
      ((r = Done (S (k + m), (b, c)) /\ nothing (k + m) (c - 1) mt) \/ (r = Failed IndexError /\ crashes (k + m) (c - 1) mt) \/
       (r = Done ((k + m)%nat, (b, c)) /\ exists l, low = Some l /\ c - 1 <= l))).
Lemma descend_spec low mt (bottom : Z) : (forall k a, ~ yields k bottom mt a) -> forall c best cur k, (Z.to_nat (cur - bottom) <= c)%nat -> bottom < cur ->
  exists r, descend_res bottom low best cur mt k r /\ forall fuel, (S c <= fuel)%nat -> descend fuel w k low best cur mt = r.
Proof. intros NB. induction c as [|c IH]; intros best cur k HC B; [lia|].
  assert (ST : forall fuel, descend (S fuel) w k low best cur mt = if match low with Some l => cur - 1 <=? l | None => false end then Done (k, (best, cur)) else
     match run_with_timeout w k (cur - 1) mt with Raise e => Failed e | Ret (Found a) => descend fuel w (S k) low a (cur - 1) mt | Ret _ => Done (S k, (best, cur)) end) by reflexivity.
  destruct (match low with Some l => cur - 1 <=? l | None => false end) eqn:EL.
  - exists (Done (k, (best, cur))). split; [|intros [|fuel] Hf; [lia|]; rewrite ST; auto]. exists 0%nat. cbv zeta. rewrite Nat.add_0_r, Z.sub_0_r. split; [auto|]. exists best. split; [reflexivity|]. right; right. split; auto.
    destruct low as [l|]; [|discriminate]. exists l. split; auto. apply Z.leb_le in EL. lia.
  - destruct (run_cases k (cur - 1) mt) as [(E & N)|[(E & N)|[(a & E & Y)|(E & C)]]].
    1,2: (exists (Done (S k, (best, cur))); split; [|intros [|fuel] Hf; [lia|]; rewrite ST, E; auto]; exists 0%nat; cbv zeta; rewrite Nat.add_0_r, Z.sub_0_r; split; [auto|]; exists best; split; [reflexivity|]; auto).
    + assert (cur - 1 <> bottom) by (intros EQ; rewrite EQ in Y; now apply (NB k a)).
      destruct (IH a (cur - 1) (S k) ltac:(lia) ltac:(lia)) as (r & (m & HM & b & HB & HR) & HF). exists r. split; [|intros [|fuel] Hf; [lia|]; rewrite ST, E, HF by lia; auto].
      exists (S m). cbv zeta in *. replace (cur - Z.of_nat (S m)) with (cur - 1 - Z.of_nat m) by lia. rewrite !Nat.add_succ_r. cbn [Nat.add] in HR. split.
      * destruct HM as [HM0 HM]. split; [exact HM0|]. intros l Hl. right. specialize (HM l Hl). destruct HM as [-> |HM]; [|lia]. rewrite Hl in EL. apply Z.leb_gt in EL. lia.
      * exists b. split; auto. cbn [Nat.eqb]. replace (S (k + m) - 1)%nat with (k + m)%nat by lia. destruct (m =? 0)%nat eqn:EM; [|now replace (S k + m - 1)%nat with (k + m)%nat in HB by lia].
        apply Nat.eqb_eq in EM. subst m b. rewrite Nat.add_0_r, Z.sub_0_r. exact Y.
    + exists (Failed IndexError). split; [|intros [|fuel] Hf; [lia|]; rewrite ST, E; auto]. exists 0%nat. cbv zeta. rewrite Nat.add_0_r, Z.sub_0_r. split; [auto|]. exists best. split; [reflexivity|]. auto. Qed.
End S.

(** a non-positive first parameter is never left *)
Lemma search_stuck {A} (w : world A) mx mn t mt : mn <= 0 -> mn <= mx -> mn <> mx -> t <= mt -> (forall k p t, p <= 0 -> nothing w k p t) -> mn = 0 ->
  forall fuel k, iterative_search_with_timeout fuel w k mn mx t mt = Unfinished.
Proof. intros M0 MX NE T N ->. intros fuel k.
  assert (IN : forall fuel k, inner_search fuel w k 0 mx t = Unfinished).
  { clear fuel k. induction fuel as [|fuel IH]; intros k; cbn [inner_search]; replace (mx <? 0) with false by (symmetry; apply Z.ltb_ge; lia); auto.
    destruct (run_cases w k 0 t) as [(E & _)|[(E & _)|[(a & E & Y)|(E & C)]]]; rewrite E.
    - destruct (Z.eqb_spec 0 mx); [congruence|]. replace (Z.min (2 * 0) mx) with 0 by lia. apply IH.
    - destruct (Z.eqb_spec 0 mx); [congruence|]. replace (Z.min (2 * 0) mx) with 0 by lia. apply IH.
    - exfalso. destruct (N k 0 t ltac:(lia)) as [H|H]; destruct Y; congruence.
    - exfalso. destruct (N k 0 t ltac:(lia)) as [H|H]; destruct C as (? & ? & ?); congruence. }
  destruct fuel; cbn [iterative_search_with_timeout]; replace (mt <? t) with false by (symmetry; apply Z.ltb_ge; lia); auto. now rewrite IN. Qed.
(** a time limit of zero is never raised *)
Lemma search_stuck_timeout {A} (w : world A) mn mx mt : 1 <= mn <= mx -> 0 <= mt -> (forall k p, nothing w k p 0) -> forall fuel k, iterative_search_with_timeout fuel w k mn mx 0 mt = Unfinished.
Proof. intros R T N. induction fuel as [|fuel IH]; intros k; cbn [iterative_search_with_timeout]; replace (mt <? 0) with false by (symmetry; apply Z.ltb_ge; lia); auto.
  assert (IN : forall f k cur, (exists k', inner_search f w k cur mx 0 = Done (k', None)) \/ inner_search f w k cur mx 0 = Unfinished).
  { clear IH fuel k. induction f as [|f IH]; intros k cur; cbn [inner_search]; destruct (mx <? cur); eauto.
    destruct (run_cases w k cur 0) as [(E & _)|[(E & _)|[(a & E & Y)|(E & C)]]]; rewrite E.
    1,2: (destruct (cur =? mx); eauto).
    - exfalso. destruct (N k cur) as [H|H]; destruct Y; congruence.
    - exfalso. destruct (N k cur) as [H|H]; destruct C as (? & ? & ?); congruence. }
  destruct (IN (S fuel) k mn) as [(k' & E)|E]; rewrite E; auto. Qed.
