(** * SynthProofs5: the circuits the generators return *)
From Verif Require Export SynthProofs4 Z3Ref.
Local Open Scope nat_scope.

Lemma completes_self m : completes m (completion m).
Proof. split; [intros v b E; cbn; now rewrite E|intros w k E; cbn; now rewrite E]. Qed.
Lemma completion_bound width m : 0 < width -> (forall w k, zm_bv m w = Some k -> k < width) -> forall w, a_bv (completion (V := cv) (W := gw) m) w < width.
Proof. intros W0 B w. cbn. destruct (zm_bv m w) as [k|] eqn:E; eauto. Qed.
Lemma gw_eq_dec : forall x y : gw, {x = y} + {x <> y}.
Proof. decide equality; apply Nat.eq_dec. Defined.
Lemma cv_eq_dec : forall x y : cv, {x = y} + {x <> y}.
Proof. decide equality; apply Nat.eq_dec. Defined.
Lemma final_rows_matA m rows n D : 1 <= D -> final_rows m rows n D = matA (completion m) rows n D.
Proof. intros H. destruct D as [|D]; [lia|]. reflexivity. Qed.

(** every control and target has a value in the model *)
Lemma unassigned width fs m w w' : 0 < width -> w <> w' -> answer_full width fs (Some m) -> In (EBvNe w w') fs \/ In (EBvNe w' w) fs -> zm_bv m w <> None.
Proof. intros W0 NE (A & B & _) I E.
  set (val := a_bv (completion m) w'). set (a := mkAsg (a_bool (completion m)) (fun u => if gw_eq_dec u w then val else a_bv (completion m) u)).
  pose proof (completion_bound width m W0 B) as CB.
  assert (C : completes m a).
  { split; [intros v b H; cbn; now rewrite H|]. intros u k H. cbn [a a_bv]. destruct (gw_eq_dec u w) as [->|]; [congruence|]. cbn. now rewrite H. }
  assert (AB : forall u, a_bv a u < width) by (intros u; cbn [a a_bv]; destruct (gw_eq_dec u w); unfold val; auto).
  assert (EQ : a_bv a w = a_bv a w').
  { cbn [a a_bv]. destruct (gw_eq_dec w w); [|contradiction]. destruct (gw_eq_dec w' w); [congruence|]. reflexivity. }
  destruct I as [I|I]; specialize (A a C AB _ I); cbn [eval] in A; rewrite EQ, Nat.eqb_refl in A; discriminate. Qed.
Lemma model_cnots_all m ds : (forall d, In d ds -> zm_bv m (Ct d) <> None /\ zm_bv m (Tg d) <> None) ->
  model_cnots m ds = Ret (map (fun d => (a_bv (completion m) (Ct d), a_bv (completion m) (Tg d))) ds).
Proof. induction ds as [|d ds IH]; intros H; auto. cbn [model_cnots map]. destruct (H d (or_introl eq_refl)) as [H1 H2]. unfold as_long. cbn [completion a_bv].
  destruct (zm_bv m (Ct d)) as [c|]; [|contradiction]. destruct (zm_bv m (Tg d)) as [t|]; [|contradiction]. cbn [pbind]. rewrite IH by (intros; apply H; right; auto). reflexivity. Qed.

Lemma bv_width_pos n : 0 < bv_width n.
Proof. unfold bv_width. apply Nat.neq_0_lt_0, Nat.pow_nonzero. lia. Qed.
(** what a model of the gate query gives *)
Lemma gates_model rows n D m : 2 <= n -> wf n rows -> 1 <= D -> answer_full (bv_width n) (gates_query rows n D) (Some m) ->
  exists cn, model_cnots m (seq 0 D) = Ret cn /\ length cn = D /\ cn_ok n cn /\ final_rows m rows n D = map (cxs cn) rows /\ length rows <= n /\ is_reduced n (length rows) (map (cxs cn) rows) = true.
Proof. intros N W HD A. pose proof (bv_width_pos n) as WP. exists (gate_pairs (completion m) D). split.
  - apply model_cnots_all. intros d Hd. apply in_seq in Hd.
    assert (I : In (EBvNe (Ct d) (Tg d)) (gates_query rows n D)).
    { unfold gates_query. apply in_app_iff; right. apply in_app_iff; left. apply in_flat_map. exists (S d). split; [apply in_seq; lia|]. rewrite Nat.sub_succ, Nat.sub_0_r. left; auto. }
    split; [apply (unassigned _ _ m (Ct d) (Tg d) WP ltac:(discriminate) A); auto|apply (unassigned _ _ m (Tg d) (Ct d) WP ltac:(discriminate) A); auto].
  - split; [unfold gate_pairs; now rewrite map_length, seq_length|]. destruct A as (A & B & _). pose proof (completion_bound _ m WP B) as CB.
    destruct (gates_sat (completion m) rows n D N W CB) as (K & E & L & R); [intros f Hf; apply A; auto using completes_self|].
    split; auto. split; [now rewrite final_rows_matA|]. auto. Qed.
Lemma depth_model width rows n D m : 0 < width -> wf n rows -> 1 <= D -> answer_full width (depth_query rows n D) (Some m) ->
  exists ls, flat_map (fun d => flat_map (fun j => map (fun i => (i, j)) (filter (fun i => match zm_bool m (Ad d i j) with Some b => b | None => false end) (seq 0 n))) (seq 0 n)) (seq 0 D) = concat ls /\
    length ls = D /\ Forall (disjoint_layer n) ls /\ final_rows m rows n D = map (cxs (concat ls)) rows /\ length rows <= n /\ is_reduced n (length rows) (map (cxs (concat ls)) rows) = true.
Proof. intros WP W HD (A & B & C). exists (map (layerA (completion m) n) (seq 0 D)). split; [now rewrite flat_map_concat_map|]. split; [now rewrite map_length, seq_length|].
  pose proof (completion_bound _ m WP B) as CB. destruct (depth_sat (completion m) rows n D W) as (K & E & L & R).
  - intros d i. cbn. destruct (zm_bool m (Ad d i i)) as [b|] eqn:EQ; auto. exfalso. destruct (C (Ad d i i) ltac:(congruence)) as (f & Hf & O). exact (diag_free _ _ _ _ _ _ Hf O).
  - intros f Hf; apply A; auto using completes_self.
  - split; auto. split; [now rewrite final_rows_matA|]. auto. Qed.

(** padding *)
Lemma supported_add n hs c t x : c < n -> t < n -> c <> t -> length x = n -> (In t hs \/ ~ In c hs) -> (supported n hs (cxv c t x) <-> supported n hs x).
Proof. intros Hc Ht NE Hx D. assert (E : forall k, k < n -> ~ In k hs -> (supported n hs x \/ supported n hs (cxv c t x)) -> nth k (cxv c t x) false = nth k x false).
  { intros k Hk NI S. rewrite nth_cxv by lia. destruct (Nat.eqb_spec k t) as [->|N]; auto. destruct D as [D|D]; [contradiction|].
    assert (X : nth c x false = false). { destruct S as [S|S]; [now apply S|]. specialize (S c Hc D). rewrite nth_cxv in S by lia. destruct (Nat.eqb_spec c t); [contradiction|auto]. }
    rewrite X. now rewrite xorb_false_r. }
  split; intros S k Hk NI; [rewrite <- (E k)|rewrite (E k)]; auto. Qed.

Lemma pad_pair n hs : 2 <= n -> exists c t, c < n /\ t < n /\ c <> t /\ (In t hs \/ ~ In c hs).
Proof. intros N. destruct (existsb (Nat.eqb 0) hs) eqn:E.
  - apply mem_spec in E. exists 1, 0. repeat split; auto; lia.
  - exists 0, 1. repeat split; try lia. right. intros I. apply mem_spec in I. congruence. Qed.
Lemma prepares_pad n H zs hs cn : 2 <= n -> wf n H -> NoDup hs -> (forall q, In q hs -> q < n) -> cn_ok n cn -> prepares n H zs (run n (hc_circuit hs cn)) ->
  forall k, exists cn', cn_ok n cn' /\ length cn' = k + length cn /\ prepares n H zs (run n (hc_circuit hs cn')).
Proof. intros N W ND F K P. destruct (pad_pair n hs N) as (c & t & Hc & Ht & NE & D). pose proof (proj1 (prepares_iff n H zs hs cn W ND F) P) as E. induction k as [|k (cn' & K' & L & P')].
  - exists cn. auto.
  - exists ((c, t) :: cn'). split; [constructor; auto|]. split; [cbn; unfold vec in *; lia|]. apply (proj2 (prepares_iff n H zs hs _ W ND F)). intros x Hx.
    rewrite <- (proj1 (prepares_iff n H zs hs cn' W ND F) P' x Hx). cbn [rev]. rewrite cxs_snoc. cbn [fst snd]. apply supported_add; auto. now rewrite cxs_length. Qed.
Lemma layers_elim zs ls : elim zs (concat ls) = concat (map (elim zs) (rev ls)).
Proof. induction ls as [|l ls IH]; [now destruct zs|]. cbn [concat rev]. rewrite map_app, concat_app, <- IH. cbn [map concat]. rewrite app_nil_r.
  unfold elim. destruct zs; rewrite rev_app_distr; auto. unfold flip_pairs. apply map_app. Qed.
Lemma elim_disjoint n zs l : disjoint_layer n l -> disjoint_layer n (elim zs l).
Proof. intros [K ND]. split; [now apply elim_ok|]. assert (P : Permutation.Permutation (qubits l) (qubits (elim zs l))); [|exact (Permutation.Permutation_NoDup P ND)].
  unfold elim. assert (R : Permutation.Permutation (qubits l) (qubits (rev l))) by (unfold qubits; apply Permutation.Permutation_flat_map, Permutation.Permutation_rev).
  destruct zs; auto. rewrite R. clear. induction (rev l) as [|[a b] r IH]; auto. cbn. rewrite Permutation.perm_swap. now rewrite IH. Qed.
Lemma elim_length zs cn : length (elim zs cn) = length cn.
Proof. unfold elim, flip_pairs. destruct zs; [apply rev_length|]. now rewrite map_length, rev_length. Qed.

(** the circuits of the two generators, for independent checks *)
Lemma gates_result solver checks D zs : 2 <= nd_cols checks -> wf (nd_cols checks) (nd_rows checks) -> nd_rows checks <> [] -> 1 <= D -> synth_solver_ok (bv_width (nd_cols checks)) solver ->
  rk (nd_cols checks) (nd_rows checks) = length (nd_rows checks) ->
  (exists circ, generate_circ_with_bounded_gates solver checks (Z.of_nat D) zs = Ret (Some circ) /\ gate_circuit (nd_cols checks) D circ /\ prepares (nd_cols checks) (nd_rows checks) zs (run (nd_cols checks) circ)) \/
  (generate_circ_with_bounded_gates solver checks (Z.of_nat D) zs = Ret None /\
   forall k circ, k <= D -> gate_circuit (nd_cols checks) k circ -> ~ prepares (nd_cols checks) (nd_rows checks) zs (run (nd_cols checks) circ)).
Proof. set (n := nd_cols checks). set (rows := nd_rows checks). intros N W NE HD SO RK. unfold generate_circ_with_bounded_gates. fold n rows.
  destruct (Nat.leb_spec n 1); [lia|]. destruct (Z.leb_spec (Z.of_nat D) 0); [lia|]. destruct (Nat.eqb_spec (length rows) 0) as [E|_]; [destruct rows; [contradiction|discriminate]|]. rewrite Nat2Z.id.
  pose proof (SO (gates_query rows n D)) as A. destruct (solver (gates_query rows n D)) as [m|].
  - left. destruct (gates_model rows n D m N W HD A) as (cn & E & L & K & FR & LE & R). rewrite E. cbn [pbind]. eexists. split; [reflexivity|]. rewrite FR. split.
    + destruct (build_hc n (map (cxs cn) rows) cn zs) as (hs & EH & ND & F & _). exists hs, (elim zs cn). split; auto. split; auto. split; auto. split; [apply cn_ok_iff; now apply elim_ok|now rewrite elim_length].
    + apply build_prepares; auto. now rewrite RK.
  - right. split; auto. intros k circ Hk (hs & cn & -> & ND & F & C & L) P. apply cn_ok_iff in C.
    destruct (prepares_pad n rows zs hs cn N W ND F C P (D - k)) as (cn' & K' & L' & P'). destruct (circuit_reduced n rows zs hs cn' W ND F K' P') as (_ & R & LE). rewrite RK in R, LE.
    destruct (gates_complete rows n (elim zs cn') N W (elim_ok n zs cn' K') LE R) as [B S]. rewrite elim_length in S. replace (length cn') with D in S by lia.
    destruct (A _ B) as (f & Hf & X). rewrite (S f Hf) in X. discriminate. Qed.
Lemma depth_result width solver checks D zs : 0 < width -> wf (nd_cols checks) (nd_rows checks) -> 1 <= nd_cols checks -> nd_rows checks <> [] -> 1 <= D -> synth_solver_ok width solver ->
  rk (nd_cols checks) (nd_rows checks) = length (nd_rows checks) ->
  (exists circ, generate_circ_with_bounded_depth solver checks (Z.of_nat D) zs = Ret (Some circ) /\ layered_circuit (nd_cols checks) D circ /\ prepares (nd_cols checks) (nd_rows checks) zs (run (nd_cols checks) circ)) \/
  (generate_circ_with_bounded_depth solver checks (Z.of_nat D) zs = Ret None /\
   forall k circ, k <= D -> layered_circuit (nd_cols checks) k circ -> ~ prepares (nd_cols checks) (nd_rows checks) zs (run (nd_cols checks) circ)).
Proof. set (n := nd_cols checks). set (rows := nd_rows checks). intros W0 W N NE HD SO RK. unfold generate_circ_with_bounded_depth. fold n rows.
  destruct (Z.leb_spec (Z.of_nat D) 0); [lia|]. destruct (Nat.eqb_spec (length rows) 0) as [E|_]; [destruct rows; [contradiction|discriminate]|]. destruct (Nat.eqb_spec n 0) as [E|_]; [lia|]. cbn [orb]. rewrite Nat2Z.id.
  pose proof (SO (depth_query rows n D)) as A. destruct (solver (depth_query rows n D)) as [m|].
  - left. destruct (depth_model width rows n D m W0 W HD A) as (ls & E & L & K & FR & LE & R). rewrite E. eexists. split; [reflexivity|]. rewrite FR.
    assert (KC : cn_ok n (concat ls)). { apply Forall_concat. eapply Forall_impl; [|exact K]. intros l [Kl _]; auto. } split.
    + destruct (build_hc n (map (cxs (concat ls)) rows) (concat ls) zs) as (hs & EH & ND & F & _). exists hs, (map (elim zs) (rev ls)). rewrite <- layers_elim. split; auto. split; auto. split; auto.
      split; [|now rewrite map_length, rev_length]. intros l Hl. apply in_map_iff in Hl as (l0 & <- & Hl). apply in_rev in Hl. destruct (elim_disjoint n zs l0 (proj1 (Forall_forall _ _) K l0 Hl)) as [Kl Nl]. split; [now apply cn_ok_iff|exact Nl].
    + apply build_prepares; auto. now rewrite RK.
  - right. split; auto. intros k circ Hk (hs & ls & -> & ND & F & C & L) P.
    set (ls' := ls ++ repeat [] (D - k)). assert (EC : concat ls' = concat ls). { unfold ls'. rewrite concat_app. replace (concat (repeat [] (D - k))) with (@nil (nat * nat)); [apply app_nil_r|]. clear. induction (D - k); auto. }
    assert (DL : Forall (disjoint_layer n) ls').
    { apply Forall_app. split; apply Forall_forall; intros l Hl.
      - destruct (C l Hl) as [C1 C2]. split; [now apply cn_ok_iff|exact C2].
      - apply repeat_spec in Hl. subst. split; constructor. }
    rewrite <- EC in P. assert (KC : cn_ok n (concat ls')). { apply Forall_concat. eapply Forall_impl; [|exact DL]. intros l [Kl _]; auto. }
    destruct (circuit_reduced n rows zs hs (concat ls') W ND F KC P) as (_ & R & LE). rewrite RK in R, LE. rewrite layers_elim in R.
    assert (S : sat (depth_asg rows (map (elim zs) (rev ls'))) (depth_query rows n D)).
    { assert (LD : length (map (elim zs) (rev ls')) = D) by (rewrite map_length, rev_length; unfold ls'; rewrite app_length, repeat_length; lia). rewrite <- LD.
      apply depth_complete; auto. apply Forall_map, Forall_rev. eapply Forall_impl; [|exact DL]. intros l Hl. now apply elim_disjoint. }
    destruct (A (mkAsg (a_bool (depth_asg rows (map (elim zs) (rev ls')))) (fun _ => 0)) (fun _ => W0)) as (f & Hf & X).
    assert (EV : eval (mkAsg (a_bool (depth_asg rows (map (elim zs) (rev ls')))) (fun _ => 0)) f = eval (depth_asg rows (map (elim zs) (rev ls'))) f) by (apply eval_ext; auto; intros; reflexivity).
    rewrite EV, (S f Hf) in X. discriminate. Qed.
