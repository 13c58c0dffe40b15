(** * VerifProofs3: the heuristic layer *)
From Verif Require Export VerifProofs2.
From Coq Require Import Permutation.
Local Open Scope nat_scope.

Definition ord_ok (ord : list fset -> list fset) : Prop := forall l, Permutation (ord l) l.

Lemma covers_length s faults : length (covers s faults) = length faults.
Proof. apply map_length. Qed.
Lemma nth_covers s faults i : i < length faults -> nth i (covers s faults) false = dot s (nth i faults []).
Proof. intros H. unfold covers. rewrite nth_indep with (d' := dot s []) by (rewrite map_length; auto). now rewrite (map_nth (fun f => dot s f)). Qed.
Lemma covers_vxor n a b faults : length a = n -> length b = n -> covers (vxor a b) faults = vxor (covers a faults) (covers b faults).
Proof. intros La Lb. unfold covers. induction faults as [|f fs IH]; auto. cbn [map vxor]. rewrite IH, dot_vxor_l by congruence. auto. Qed.
Lemma map_const_zero {A} (f : A -> bool) l : (forall x, In x l -> f x = false) -> map f l = vzero (length l).
Proof. induction l as [|x l IH]; intros H; auto. cbn [map length]. rewrite vzero_S, IH by (intros; apply H; right; auto). f_equal. apply H. left; auto. Qed.
Lemma min_weight_in l : forall b, In (min_weight b l) (b :: l).
Proof. induction l as [|v l IH]; intros b; cbn [min_weight]; [left; auto|]. destruct (weight v <? weight b); destruct (IH v), (IH b); cbn; auto. Qed.
Lemma lightest_in l : l <> [] -> In (lightest l) l.
Proof. destruct l as [|v l]; [congruence|]. intros _. apply min_weight_in. Qed.
Lemma setadd_in c l x : In x (setadd c l) <-> x = c \/ In x l.
Proof. unfold setadd. destruct (fmem c l) eqn:E. - apply fmem_in in E. split; [auto|intros [-> | H]; auto]. - rewrite in_app_iff. cbn. intuition. Qed.

Lemma nodup_app {A} (l m : list A) : NoDup l -> NoDup m -> (forall x, In x l -> In x m -> False) -> NoDup (l ++ m).
Proof. induction 1 as [|x l H _ IH]; intros ND D; auto. cbn. constructor; [rewrite in_app_iff; intros [X|X]; [auto|apply (D x); cbn; auto]|]. apply IH; auto. intros y H1 H2. apply (D y); cbn; auto. Qed.
Section Layer.
Variables (n : nat) (faults gens : mat).
Hypotheses (WF : wf n faults) (WG : wf n gens).
Notation nf := (length faults).
(** what the mapping of a frozenset contains: combinations of the checks detecting exactly that set *)
Definition minv (mp : mapping) : Prop := forall k m, In m (mp k) -> length m = n /\ span n gens m /\ covers m faults = k.
Definition keyed (mp : mapping) (k : fset) : Prop := length k = nf /\ mp k <> [].
Lemma extend_minv mp k l : minv mp -> (forall m, In m l -> length m = n /\ span n gens m /\ covers m faults = k) -> minv (m_extend mp k l).
Proof. intros M H k' m. unfold m_extend. destruct (veqb k' k) eqn:E; [|apply M]. apply veqb_eq in E. subst k'. intros Hm. apply in_app_iff in Hm as [Hm|Hm]; auto. Qed.
Lemma extend_keyed mp k l k' : keyed mp k' -> keyed (m_extend mp k l) k'.
Proof. intros [L N]. split; auto. unfold m_extend. destruct (veqb k' k) eqn:E; auto. apply veqb_eq in E. subst k'. intros H. apply app_eq_nil in H. tauto. Qed.
Lemma extend_keyed_new mp k l : length k = nf -> l <> [] -> keyed (m_extend mp k l) k.
Proof. intros L N. split; auto. unfold m_extend. rewrite (proj2 (veqb_eq k k)) by auto. intros H. apply app_eq_nil in H. tauto. Qed.

Lemma init_inv ss : (forall s, In s ss -> In s gens) -> forall sm0, minv (snd sm0) -> Forall (keyed (snd sm0)) (fst sm0) -> NoDup (fst sm0) ->
  let sm := fold_left (add_cand faults) ss sm0 in
  minv (snd sm) /\ Forall (keyed (snd sm)) (fst sm) /\ NoDup (fst sm) /\ (forall c, In c (fst sm) <-> In c (fst sm0) \/ exists s, In s ss /\ c = covers s faults).
Proof. induction ss as [|s ss IH]; intros HS sm0 M K ND; cbn [fold_left].
  - split; auto. split; auto. split; auto. intros c. split; [auto|intros [H|(x & [] & _)]; auto].
  - assert (Hs : In s gens) by (apply HS; left; auto). assert (Ls : length s = n) by (apply (wf_in n gens); auto).
    destruct (IH (fun x H => HS x (or_intror H)) (add_cand faults sm0 s)) as (A & B & C & D).
    + cbn. apply extend_minv; auto. intros m [<-|[]]. split; auto. split; auto. now apply span_in.
    + cbn [add_cand fst snd]. apply Forall_forall. intros c Hc. apply setadd_in in Hc as [-> | Hc]; [apply extend_keyed_new; [apply covers_length|discriminate]|]. apply extend_keyed. revert c Hc. now apply Forall_forall.
    + cbn [add_cand fst]. unfold setadd. destruct (fmem _ _) eqn:E; auto. apply fmem_false in E. apply (Permutation_NoDup (l := covers s faults :: fst sm0)); [apply Permutation_cons_append|]. now constructor.
    + split; auto. split; auto. split; auto. intros c. rewrite D. cbn [add_cand fst]. rewrite setadd_in. split.
      * intros [[-> | H]|(x & Hx & ->)]; auto; right; [exists s|exists x]; cbn; auto.
      * intros [H|(x & [<-|Hx] & ->)]; auto. right. eauto. Qed.

Definition ext_inv (cands : list fset) (s : ext_state) : Prop :=
  minv (x_map s) /\ Forall (keyed (x_map s)) cands /\ Forall (keyed (x_map s)) (x_add s) /\ NoDup (x_add s) /\ forall c, In c (x_add s) -> ~ In c cands.
Lemma ext_step_inv cands c1 c2 s : In c1 cands -> In c2 cands -> ext_inv cands s -> ext_inv cands (ext_step cands c1 c2 s).
Proof. intros H1 H2 (M & K & KA & ND & DJ). unfold ext_step. cbv zeta. destruct (_ || _) eqn:E; [split; auto|]. apply orb_false_iff in E as [E _]. apply orb_false_iff in E as [E NA]. apply orb_false_iff in E as [_ NC].
  apply fmem_false in NA. apply fmem_false in NC. pose proof (proj1 (Forall_forall _ _) K) as KF. destruct (KF c1 H1) as [L1 N1]. destruct (KF c2 H2) as [L2 N2]. unfold ext_inv. cbn [x_map x_add]. split; [|split; [|split; [|split]]].
  - apply extend_minv; auto. intros m Hm. apply in_flat_map in Hm as (s1 & Hs1 & Hm). apply in_map_iff in Hm as (s2 & <- & Hs2).
    destruct (M c1 s1 Hs1) as (A1 & B1 & C1). destruct (M c2 s2 Hs2) as (A2 & B2 & C2). split; [now apply vxor_length'|]. split; [now apply span_vxor|]. rewrite (covers_vxor n) by auto. congruence.
  - eapply Forall_impl; [|exact K]. intros c. apply extend_keyed.
  - apply Forall_forall. intros c Hc. apply setadd_in in Hc as [-> | Hc]; [|apply extend_keyed; revert c Hc; now apply Forall_forall].
    apply extend_keyed_new; [apply vxor_length'; auto|]. destruct (x_map s c1) as [|a l]; [congruence|]. destruct (x_map s c2) as [|b l']; [congruence|]. discriminate.
  - rewrite setadd_new by (now apply fmem_false). apply (Permutation_NoDup (l := vxor c1 c2 :: x_add s)); [apply Permutation_cons_append|]. now constructor.
  - intros c Hc. apply setadd_in in Hc as [-> | Hc]; auto. Qed.
Lemma ext_inner_inv limit cands c1 l : In c1 cands -> (forall c, In c l -> In c cands) -> forall s, ext_inv cands s -> ext_inv cands (ext_inner limit cands c1 l s).
Proof. intros H1. induction l as [|c2 l IH]; intros HL s I; cbn [ext_inner]; auto. destruct (limit <=? _); auto. apply IH; [intros c Hc; apply HL; right; auto|]. apply ext_step_inv; auto. apply HL. left; auto. Qed.
Lemma extend_inv limit cands mp : minv mp -> Forall (keyed mp) cands -> NoDup cands ->
  let r := extend_covering_sets cands limit mp in minv (snd r) /\ Forall (keyed (snd r)) (fst r) /\ incl cands (fst r) /\ NoDup (fst r) /\ (forall k, keyed mp k -> keyed (snd r) k).
Proof. intros M K ND. unfold extend_covering_sets. cbv zeta. cbn [fst snd].
  assert (MONO1 : forall c1 c2 s k, keyed (x_map s) k -> keyed (x_map (ext_step cands c1 c2 s)) k) by (intros c1 c2 s k H; unfold ext_step; cbv zeta; destruct (_ || _); auto; cbn [x_map]; now apply extend_keyed).
  assert (MONO2 : forall c1 l s k, keyed (x_map s) k -> keyed (x_map (ext_inner limit cands c1 l s)) k) by (intros c1 l; induction l as [|c2 l IH]; intros s k H; cbn [ext_inner]; auto; destruct (limit <=? _); auto).
  assert (G : forall l s, (forall c, In c l -> In c cands) -> ext_inv cands s -> ext_inv cands (fold_left (fun s c1 => ext_inner limit cands c1 cands s) l s) /\ (forall k, keyed (x_map s) k -> keyed (x_map (fold_left (fun s c1 => ext_inner limit cands c1 cands s) l s)) k)).
  { induction l as [|c l IH]; intros s HL I; cbn [fold_left]; auto. destruct (IH (ext_inner limit cands c cands s)) as [A B]; auto.
    - intros x Hx. apply HL. right; auto.
    - apply ext_inner_inv; auto. apply HL. left; auto. }
  destruct (G cands (mkExt [] [] mp)) as [(A & B & C & D & E) F]; auto. { unfold ext_inv. cbn [x_map x_add]. split; [|split; [|split; [|split]]]; auto; constructor. }
  split; auto. split; [apply Forall_app; auto|]. split; [apply incl_appl, incl_refl|]. split; [|exact F].
  apply nodup_app; auto. intros x Hx Hx'. now apply (E x). Qed.

Variable ord : list fset -> list fset.
Hypothesis OO : ord_ok ord.
Lemma ord_in l x : In x (ord l) <-> In x l.
Proof. split; apply Permutation_in; [|apply Permutation_sym]; apply OO. Qed.
Lemma ord_nodup l : NoDup l -> NoDup (ord l).
Proof. intros H. eapply Permutation_NoDup; [apply Permutation_sym, OO|auto]. Qed.
Lemma ord_Forall (P : fset -> Prop) l : Forall P l -> Forall P (ord l).
Proof. intros H. apply Forall_forall. intros x Hx. apply (proj1 (Forall_forall _ _) H). now apply ord_in. Qed.
Definition covering (cands : list fset) : Prop := forall i, i < nf -> exists c, In c cands /\ nth i c false = true.
Definition good (mp : mapping) (cover : list fset) : Prop := Forall (keyed mp) cover /\ (forall i, i < nf -> uncovered cover i = false) /\ forall c, In c cover -> exists i, i < nf /\ nth i c false = true.
Lemma set_cover_good fuel mp cands cover : Forall (keyed mp) cands -> set_cover fuel nf cands mp = Done cover -> good mp cover.
Proof. intros K H. assert (FC : Forall (fun c => length c = nf) cands) by (eapply Forall_impl; [|exact K]; intros c [L _]; auto).
  destruct (set_cover_sound nf cands mp FC fuel _ [] cover (rest_init nf)) as (A & G & C); auto. { intros x []. } { intros pre c post E. destruct pre; discriminate. }
  split; [|split; auto]. { apply Forall_forall. intros c Hc. apply (proj1 (Forall_forall _ _) K). auto. }
  intros c Hc. apply in_split in Hc as (pre & post & E). destruct (G pre c post E) as [P _]. unfold gain in P. destruct (filter _ _) as [|i l] eqn:EF; [cbn in P; lia|].
  assert (I : In i (i :: l)) by (left; auto). rewrite <- EF in I. apply filter_In in I as [I1 I2]. apply in_seq in I1. apply andb_true_iff in I2 as [_ I2]. exists i. split; [lia|auto]. Qed.
Lemma set_cover_term fuel mp cands : Forall (keyed mp) cands -> covering cands -> nf <= fuel -> exists cover, set_cover fuel nf cands mp = Done cover.
Proof. intros K C H. assert (FC : Forall (fun c => length c = nf) cands) by (eapply Forall_impl; [|exact K]; intros c [L _]; auto).
  apply (set_cover_complete nf); auto; [apply repeat_length|now rewrite weight_repeat]. Qed.
Lemma improve_done max_sets fuel : forall cands mp cover cst cover' mp', minv mp -> Forall (keyed mp) cands -> NoDup cands -> good mp cover ->
  improve fuel ord nf max_sets cands mp cover cst = Done (cover', mp') -> minv mp' /\ good mp' cover'.
Proof. induction fuel as [|fuel IH]; intros cands mp cover cst cover' mp' M K ND G; cbn [improve]; destruct (max_sets <=? length cands); try discriminate; try (intros E; injection E as <- <-; auto; fail).
  pose proof (extend_inv max_sets cands mp M K ND) as EI. destruct (extend_covering_sets cands max_sets mp) as [cs' mp1]. cbv zeta in EI. cbn [fst snd] in EI. destruct EI as (M1 & K1 & I1 & ND1 & MONO).
  assert (G1 : good mp1 cover) by (destruct G as (GA & GB & GC); split; [eapply Forall_impl; [|exact GA]; auto|split; auto]).
  pose proof (ord_Forall _ _ K1) as K2. pose proof (ord_nodup _ ND1) as ND2.
  destruct (set_cover (S fuel) nf (ord cs') mp1) as [nc| |] eqn:SC; try discriminate. destruct (cost_lt _ _); [|intros E; injection E as <- <-; auto].
  apply IH; auto. apply (set_cover_good (S fuel) mp1 (ord cs')); auto. Qed.
Lemma improve_terminates max_sets : forall c1 c2 cands mp cover, minv mp -> Forall (keyed mp) cands -> NoDup cands -> covering cands ->
  exists F, forall fuel, F <= fuel -> exists r, improve fuel ord nf max_sets cands mp cover (c1, c2) = Done r.
Proof. induction c1 as [c1 IH1] using (well_founded_induction lt_wf). induction c2 as [c2 IH2] using (well_founded_induction lt_wf). intros cands mp cover M K ND C.
  pose proof (extend_inv max_sets cands mp M K ND) as EI. destruct (extend_covering_sets cands max_sets mp) as [cs' mp1] eqn:EX. cbv zeta in EI. cbn [fst snd] in EI. destruct EI as (M1 & K1 & I1 & ND1 & MONO).
  pose proof (ord_Forall _ _ K1) as K2. pose proof (ord_nodup _ ND1) as ND2.
  assert (C2 : covering (ord cs')) by (intros i Hi; destruct (C i Hi) as (c & Hc & Ni); exists c; split; auto; apply ord_in; auto).
  destruct (Nat.leb_spec max_sets (length cands)) as [LE|GT].
  { exists 0. intros fuel _. exists (cover, mp). destruct fuel; cbn [improve]; now rewrite (proj2 (Nat.leb_le _ _) LE). }
  (* the cover does not depend on the fuel once there is enough *)
  assert (SCF : exists nc, forall fuel, nf <= fuel -> set_cover fuel nf (ord cs') mp1 = Done nc).
  { destruct (set_cover_term nf mp1 (ord cs') K2 C2 (le_n _)) as (nc & E). exists nc. intros fuel Hf.
    assert (MONOF : forall f u cov r, set_cover_loop f (ord cs') mp1 u cov = Done r -> forall f', f <= f' -> set_cover_loop f' (ord cs') mp1 u cov = Done r).
    { clear. induction f as [|f IH]; intros u cov r H f' L; destruct f' as [|f']; cbn [set_cover_loop] in *; try lia; destruct (weight u =? 0); auto; try discriminate.
      destruct (ord cs') as [|c cs]; try discriminate. apply IH; auto. lia. }
    unfold set_cover in *. eapply MONOF; eauto. }
  destruct SCF as (nc & SC). destruct (cost_lt (cost mp1 nc) (c1, c2)) eqn:CL.
  - assert (NEXT : exists F, forall fuel, F <= fuel -> exists r, improve fuel ord nf max_sets (ord cs') mp1 nc (cost mp1 nc) = Done r).
    { destruct (cost mp1 nc) as [d1 d2] eqn:EC. unfold cost_lt in CL. cbn [fst snd] in CL. apply orb_true_iff in CL as [CL|CL].
      - apply Nat.ltb_lt in CL. apply IH1; auto.
      - apply andb_true_iff in CL as [CL1 CL2]. apply Nat.eqb_eq in CL1. apply Nat.ltb_lt in CL2. subst d1. apply IH2; auto. }
    destruct NEXT as (F & HF). exists (S (nf + F)). intros [|fuel] Hf; [lia|]. cbn [improve]. rewrite (proj2 (Nat.leb_gt _ _) GT), EX. cbv zeta. rewrite SC by lia. rewrite CL. apply HF. lia.
  - exists (S nf). intros [|fuel] Hf; [lia|]. cbn [improve]. rewrite (proj2 (Nat.leb_gt _ _) GT), EX. cbv zeta. rewrite SC by lia. rewrite CL. eauto. Qed.
End Layer.

Lemma filter_split_in {A} (p : A -> bool) (l : list A) x : In x l -> In x (filter p l) \/ In x (filter (fun y => negb (p y)) l).
Proof. intros H. destruct (p x) eqn:E; [left|right]; apply filter_In; rewrite ?E; auto. Qed.

Lemma layer_sound fuel ord opt n faults checks fcl max_sets ms : wf n faults -> wf n checks -> ord_ok ord -> optimizer_ok 1 opt ->
  heuristic_layer fuel ord opt faults checks fcl max_sets = Done ms ->
  (forall m, In m ms -> span n checks m) /\ (forall f, In f faults -> exists m, In m ms /\ dot m f = true) /\ (forall m, In m ms -> exists f, In f faults /\ dot m f = true).
Proof. intros WF WC OO OK. unfold heuristic_layer. cbv zeta. set (cand := fun s => existsb (fun f => dot s f) faults). set (cc := filter cand checks). set (nc := filter (fun s => negb (cand s)) checks).
  assert (WCC : wf n cc) by (apply Forall_forall; intros r Hr; apply filter_In in Hr as [Hr _]; apply (wf_in n checks); auto).
  assert (WNC : wf n nc) by (apply Forall_forall; intros r Hr; apply filter_In in Hr as [Hr _]; apply (wf_in n checks); auto).
  pose proof (init_inv n faults cc WCC cc (fun s H => H) ([], fun _ => [])) as II. destruct (fold_left (add_cand faults) cc ([], fun _ => [])) as [cs mp]. cbv zeta in II. cbn [fst snd] in II.
  destruct II as (M & K & ND & IN). { intros k m []. } { constructor. } { constructor. }
  pose proof (ord_Forall ord OO _ _ K) as K'. pose proof (ord_nodup ord OO _ ND) as ND'.
  destruct (set_cover fuel (length faults) (ord cs) mp) as [cover| |] eqn:SC; try discriminate. pose proof (set_cover_good faults fuel mp (ord cs) cover K' SC) as G.
  destruct (improve fuel ord (length faults) max_sets (ord cs) mp cover (cost mp cover)) as [[cover' mp']| |] eqn:IM; try discriminate. intros [= <-].
  destruct (improve_done n faults cc WCC ord OO max_sets fuel _ _ _ _ _ _ M K' ND' G IM) as (M' & GK & GC & GN).
  set (pickm := fun c => if fcl && negb (length nc =? 0) then lightest (map (fun m => coset_leader opt m nc) (mp' c)) else lightest (mp' c)).
  assert (P : forall c, In c cover' -> span n checks (pickm c) /\ covers (pickm c) faults = c).
  { intros c Hc. destruct (proj1 (Forall_forall _ _) GK c Hc) as [Lc Nc]. unfold pickm.
    assert (SUB : forall v, span n cc v -> span n checks v) by (intros v; apply span_incl_in; auto; intros r Hr; apply filter_In in Hr; tauto).
    assert (SUBN : forall v, span n nc v -> span n checks v) by (intros v; apply span_incl_in; auto; intros r Hr; apply filter_In in Hr; tauto).
    destruct (fcl && negb (length nc =? 0)).
    - assert (IL : In (lightest (map (fun m => coset_leader opt m nc) (mp' c))) (map (fun m => coset_leader opt m nc) (mp' c))) by (apply lightest_in; destruct (mp' c); [congruence|discriminate]).
      apply in_map_iff in IL as (m & <- & Hm). destruct (M' c m Hm) as (Lm & Sm & Em). destruct (coset_leader_ok opt n m nc OK Lm WNC) as (S & L & _). split.
      + rewrite <- (vxor_cancel_l n m (coset_leader opt m nc)) by auto. apply span_vxor; auto.
      + rewrite <- Em. rewrite <- (vxor_cancel_l n m (coset_leader opt m nc)) by auto. rewrite (covers_vxor n) by (auto; now apply vxor_length').
        replace (covers (vxor m (coset_leader opt m nc)) faults) with (vzero (length faults)); [apply vxor_zero_r; apply covers_length|].
        symmetry. unfold covers. apply map_const_zero. intros f Hf. rewrite dot_comm. apply (dot_span_zero n nc f WNC); auto. intros k Hk. apply filter_In in Hk as [_ Hk]. apply negb_true_iff in Hk. rewrite dot_comm.
        destruct (dot k f) eqn:E; auto. assert (T : cand k = true) by (apply existsb_exists; eauto). congruence.
    - pose proof (lightest_in _ Nc) as IL. destruct (M' c _ IL) as (Lm & Sm & Em). split; auto. }
  split; [|split].
  - intros m Hm. apply in_map_iff in Hm as (c & <- & Hc). apply P. now apply (ord_in ord OO).
  - intros f Hf. apply In_nth with (d := []) in Hf as (i & Hi & <-). specialize (GC i Hi). unfold uncovered in GC. apply negb_false_iff in GC. apply existsb_exists in GC as (c & Hc & Nc).
    exists (pickm c). split; [apply in_map; now apply (ord_in ord OO)|]. destruct (P c Hc) as [_ E]. rewrite <- nth_covers by auto. now rewrite E.
  - intros m Hm. apply in_map_iff in Hm as (c & EM & Hc). apply (proj1 (ord_in ord OO _ _)) in Hc. destruct (GN c Hc) as (i & Hi & Ni). destruct (P c Hc) as [_ E]. exists (nth i faults []). split; [now apply nth_In|].
    rewrite <- nth_covers by auto. change (pickm c = m) in EM. rewrite <- EM, E. exact Ni. Qed.
Lemma layer_terminates ord opt n faults checks fcl max_sets : wf n faults -> wf n checks -> ord_ok ord -> (forall f, In f faults -> exists s, In s checks /\ dot s f = true) ->
  exists F, forall fuel, F <= fuel -> exists ms, heuristic_layer fuel ord opt faults checks fcl max_sets = Done ms.
Proof. intros WF WC OO DET. unfold heuristic_layer. cbv zeta. set (cand := fun s => existsb (fun f => dot s f) faults). set (cc := filter cand checks). set (nc := filter (fun s => negb (cand s)) checks).
  assert (WCC : wf n cc) by (apply Forall_forall; intros r Hr; apply filter_In in Hr as [Hr _]; apply (wf_in n checks); auto).
  pose proof (init_inv n faults cc WCC cc (fun s H => H) ([], fun _ => [])) as II. destruct (fold_left (add_cand faults) cc ([], fun _ => [])) as [cs mp]. cbv zeta in II. cbn [fst snd] in II.
  destruct II as (M & K & ND & IN). { intros k m []. } { constructor. } { constructor. }
  pose proof (ord_Forall ord OO _ _ K) as K'. pose proof (ord_nodup ord OO _ ND) as ND'.
  assert (C : covering faults (ord cs)).
  { intros i Hi. destruct (DET (nth i faults []) (nth_In _ _ Hi)) as (s & Hs & D). exists (covers s faults). split; [|now rewrite nth_covers].
    apply (ord_in ord OO). apply IN. right. exists s. split; auto. apply filter_In. split; auto. apply existsb_exists. exists (nth i faults []). split; auto. now apply nth_In. }
  assert (SCF : exists nc, forall fuel, length faults <= fuel -> set_cover fuel (length faults) (ord cs) mp = Done nc).
  { destruct (set_cover_term faults (length faults) mp (ord cs) K' C (le_n _)) as (r & E). exists r. intros fuel Hf.
    assert (MONOF : forall f u cov r, set_cover_loop f (ord cs) mp u cov = Done r -> forall f', f <= f' -> set_cover_loop f' (ord cs) mp u cov = Done r).
    { clear. induction f as [|f IH]; intros u cov r H f' L; destruct f' as [|f']; cbn [set_cover_loop] in *; try lia; destruct (weight u =? 0); auto; try discriminate.
      destruct (ord cs) as [|c cs']; try discriminate. apply IH; auto. lia. }
    unfold set_cover in *. eapply MONOF; eauto. }
  destruct SCF as (cover & SC). destruct (cost mp cover) as [c1 c2] eqn:EC.
  destruct (improve_terminates n faults cc WCC ord OO max_sets c1 c2 (ord cs) mp cover M K' ND' C) as (F & HF).
  exists (length faults + F). intros fuel Hf. rewrite SC by lia. rewrite EC. destruct (HF fuel ltac:(lia)) as ([cover' mp'] & ->). eauto. Qed.

