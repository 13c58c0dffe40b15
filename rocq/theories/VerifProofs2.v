(** * VerifProofs2: coset leaders and the SAT-based verification stabilizers *)
From Verif Require Export VerifProofs Z3Ref.
Local Open Scope nat_scope.

Lemma occurs_and {V W} (v : V) (l : list (expr V W)) e : In e l -> occurs v e -> occurs v (EAnd l).
Proof. cbn. induction l as [|x l IH]; cbn; [tauto|]. intros [E|H] O; [subst; left; auto|right; apply IH; auto]. Qed.
Lemma evec_con {V W} (a : asg V W) v : evec a (map Con v) = v.
Proof. unfold evec. rewrite map_map. cbn. apply map_id. Qed.
Lemma Forall2_nth_lt {A B} (P : A -> B -> Prop) (da : A) (db : B) l l' : Forall2 P l l' -> forall i, i < length l -> P (nth i l da) (nth i l' db).
Proof. induction 1 as [|x y l l' H _ IH]; intros [|i] Hi; cbn in *; try lia; auto. apply IH. lia. Qed.
Lemma map_seq_vec n (v : vec) : length v = n -> map (fun i => nth i v false) (seq 0 n) = v.
Proof. intros <-. apply map_nth_seq. Qed.

Section CL.
Variables (n : nat) (error : vec) (gens : mat).
Hypotheses (Le_n : length error = n) (WG : wf n gens) (NE : gens <> []).
Lemma cl_eval (a : asg cl_var Empty_set) : (forall f, In f (cl_query error gens) -> eval a f = true) <->
  map (fun i => a_bool a (Le i)) (seq 0 n) = vxor error (lincomb n (map (fun i => a_bool a (Co i)) (seq 0 (length gens))) gens).
Proof. unfold cl_query, cl_leader. cbv zeta. set (meas := map (fun i => Sym (EVar (Co i))) (seq 0 (length gens))).
  destruct (vars_to_stab_eval a n gens meas WG ltac:(unfold meas; now rewrite map_length, seq_length) NE) as [L E].
  assert (L1 : length (map (@Con cl_var Empty_set) error) = length (vars_to_stab meas gens)) by (rewrite map_length; unfold vec, mat in *; congruence).
  rewrite map_map. assert (X : forall P : expr cl_var Empty_set -> Prop, forall q, (forall f, In f [q] -> P f) <-> P q) by (intros P q; split; [intros H; apply H; left; auto|intros H f [<-|[]]; auto]).
  rewrite X. rewrite eq_eval by (rewrite map_length, seq_length, add_length, map_length; auto).
  rewrite evec_vars, (add_eval a _ _ L1), evec_con, E, Le_n. unfold meas. rewrite evec_vars. reflexivity. Qed.
Lemma cl_sat w : span n gens w -> exists a : asg cl_var Empty_set, (forall f, In f (cl_query error gens) -> eval a f = true) /\ map (fun i => a_bool a (Le i)) (seq 0 n) = vxor error w.
Proof. intros (c & Lc & <-). exists (mkAsg (fun v => match v with Le i => nth i (vxor error (lincomb n c gens)) false | Co i => nth i c false end) (fun w : Empty_set => match w with end)).
  assert (E1 : map (fun i => nth i (vxor error (lincomb n c gens)) false) (seq 0 n) = vxor error (lincomb n c gens)) by (apply map_seq_vec; apply vxor_length'; auto; now apply lincomb_length).
  split; [|exact E1]. apply cl_eval. cbn [a_bool]. etransitivity; [exact E1|]. do 2 f_equal. symmetry. now apply map_seq_vec. Qed.
Lemma cl_count (a : asg cl_var Empty_set) : count (eval a) (cl_leader error) = weight (map (fun i => a_bool a (Le i)) (seq 0 n)).
Proof. unfold count, cl_leader. rewrite filter_map_len, Le_n. cbn [eval]. clear. induction (seq 0 n) as [|i l IH]; auto. cbn [filter map weight]. destruct (a_bool a (Le i)); cbn [length]; lia. Qed.
Lemma cl_occurs v o : In o (cl_leader error) -> occurs v o -> exists f, In f (cl_query error gens) /\ occurs v f.
Proof. intros Ho O. unfold cl_leader in Ho. apply in_map_iff in Ho as (i & <- & Hi). cbn in O. subst v. unfold cl_query. cbv zeta. eexists. split; [left; reflexivity|].
  unfold symbolic_vector_eq, cl_leader. rewrite !map_map.
  eapply occurs_and. { apply in_map_iff. exists i. split; [reflexivity|]. rewrite map_length, seq_length. exact Hi. }
  rewrite nth_indep with (d' := Sym (EVar (Le 0))) by (rewrite map_length, seq_length; apply in_seq in Hi; lia).
  rewrite (map_nth (fun i => Sym (EVar (Le i)))), seq_nth by (apply in_seq in Hi; lia). cbn [plus]. destruct (nth i _ _) as [[]|]; cbn; auto. Qed.
Lemma coset_leader_spec opt : optimizer_ok 1 opt ->
  span n gens (vxor error (coset_leader opt error gens)) /\ length (coset_leader opt error gens) = n /\
  forall w, span n gens w -> weight (coset_leader opt error gens) <= weight (vxor error w).
Proof. intros OK. unfold coset_leader. destruct gens as [|g gs] eqn:EG; [congruence|]. rewrite <- EG in *. clear g gs EG. cbv zeta. rewrite Le_n.
  destruct (OK (cl_query error gens) (cl_leader error) cl_occurs) as ((S & _) & M).
  { destruct (cl_sat (vzero n) (span_zero n gens)) as (a & H & _). exists a. split; auto. intros []. }
  set (m := opt _ _) in *. pose proof (proj1 (cl_eval (completion m)) S) as E. set (r := map _ (seq 0 n)) in *. split; [|split].
  - rewrite E. exists (map (fun i => a_bool (completion m) (Co i)) (seq 0 (length gens))). split; [rewrite map_length, seq_length; auto|].
    symmetry. apply (vxor_cancel_l n); auto. now apply lincomb_length.
  - unfold r. now rewrite map_length, seq_length.
  - intros w Hw. destruct (cl_sat w Hw) as (a & Ha & Ea). rewrite <- Ea, <- cl_count. change (weight r) with (weight (map (fun i => a_bool (completion m) (Le i)) (seq 0 n))). rewrite <- cl_count. apply M; auto. intros []. Qed.
End CL.
Lemma coset_leader_ok opt n error gens : optimizer_ok 1 opt -> length error = n -> wf n gens ->
  span n gens (vxor error (coset_leader opt error gens)) /\ length (coset_leader opt error gens) = n /\
  forall w, span n gens w -> weight (coset_leader opt error gens) <= weight (vxor error w).
Proof. intros OK L WG. destruct gens as [|g gs].
  - cbn [coset_leader]. split; [|split]; auto. + rewrite (vxor_self' n) by auto. apply span_zero. + intros w (c & _ & <-). destruct c; cbn [lincomb]; now rewrite vxor_zero_r.
  - apply coset_leader_spec; auto. discriminate. Qed.

(** ** verification_stabilizers *)
Definition anc_comb (a : asg vs_var Empty_set) (k anc : nat) : vec := map (fun g => a_bool a (Mv anc g)) (seq 0 k).
Section VS.
Variables (n : nat) (gens : mat).
Hypotheses (WG : wf n gens) (NE : gens <> []).
Definition vstab (a : asg vs_var Empty_set) (anc : nat) : vec := lincomb n (anc_comb a (length gens) anc) gens.
Lemma vs_stab_eval a num_anc m : In m (vs_stabs gens num_anc) -> exists anc, anc < num_anc /\ length m = n /\ evec a m = vstab a anc.
Proof. unfold vs_stabs. intros H. apply in_map_iff in H as (anc & <- & Ha). apply in_seq in Ha. exists anc. split; [lia|].
  destruct (vars_to_stab_eval a n gens (map (fun i => Sym (EVar (Mv anc i))) (seq 0 (length gens))) WG ltac:(now rewrite map_length, seq_length) NE) as [L E]. split; auto. rewrite E, evec_vars. reflexivity. Qed.
Lemma vs_stab_mk a num_anc anc : anc < num_anc -> exists m, In m (vs_stabs gens num_anc) /\ length m = n /\ evec a m = vstab a anc.
Proof. intros H. eexists. split. { apply in_map_iff. exists anc. split; [reflexivity|]. apply in_seq. lia. }
  destruct (vars_to_stab_eval a n gens (map (fun i => Sym (EVar (Mv anc i))) (seq 0 (length gens))) WG ltac:(now rewrite map_length, seq_length) NE) as [L E]. split; auto. rewrite E, evec_vars. reflexivity. Qed.
(** exactly one common qubit *)
Definition overlap (s f : vec) : nat := length (filter (fun i => nth i s false && nth i f false) (seq 0 n)).
Lemma overlap_eval a m anc f : length m = n -> length f = n -> evec a m = vstab a anc -> eval a (odd_overlap m f) = (overlap (vstab a anc) f =? 1).
Proof. intros L Lf E. rewrite odd_overlap_eval, E, filter_filter, Lf. unfold overlap. f_equal. f_equal. apply filter_ext. intros i. apply andb_comm. Qed.
Lemma count_eval_flat a num_anc : count (eval a) (flat_map (fun m => map (fun q => toe (nth q m (Con false))) (seq 0 n)) (vs_stabs gens num_anc)) = list_sum (map (fun anc => weight (vstab a anc)) (seq 0 num_anc)).
Proof. unfold vs_stabs. set (F := fun anc => vars_to_stab (map (fun i => Sym (EVar (Mv anc i))) (seq 0 (length gens))) gens). rewrite flat_map_concat_map, map_map, <- flat_map_concat_map.
  generalize (seq 0 num_anc). intros l. induction l as [|anc l IH]; auto. cbn [flat_map map]. unfold count in *. rewrite filter_app, app_length, IH. change (list_sum (?x :: ?y)) with (x + list_sum y). f_equal.
  destruct (vars_to_stab_eval a n gens (map (fun i => Sym (EVar (Mv anc i))) (seq 0 (length gens))) WG ltac:(now rewrite map_length, seq_length) NE) as [L E]. fold (F anc) in *.
  rewrite filter_map_len. unfold vstab, anc_comb. rewrite evec_vars in E. cbn [a_bool] in E. rewrite <- E. rewrite (weight_seq n) by (rewrite evec_length; auto). f_equal. apply filter_ext. intros i. symmetry. apply nth_evec. Qed.
Lemma vs_eval a faults num_anc num_cnots : wf n faults -> ((forall f, In f (vs_query n gens faults num_anc num_cnots) -> eval a f = true) <->
  (forall e, In e faults -> exists anc, anc < num_anc /\ overlap (vstab a anc) e = 1) /\ list_sum (map (fun anc => weight (vstab a anc)) (seq 0 num_anc)) <= num_cnots).
Proof. intros WF. unfold vs_query. cbv zeta. rewrite <- count_eval_flat. unfold count.
  assert (X : forall P : expr vs_var Empty_set -> Prop, forall q r, (forall f, In f [q; r] -> P f) <-> P q /\ P r) by (intros P q r; split; [intros H; split; apply H; cbn; auto|intros [H1 H2] f [<-|[<-|[]]]; auto]).
  rewrite X. clear X. cbn [eval]. rewrite Nat.leb_le. rewrite forallb_forall.
  assert (Y : (forall x, In x (map (fun error => EPbGe (map (fun m => odd_overlap m error) (vs_stabs gens num_anc)) 1) faults) -> eval a x = true) <->
    (forall e, In e faults -> exists anc, anc < num_anc /\ overlap (vstab a anc) e = 1)).
  { split.
    - intros H e He. specialize (H _ (in_map _ _ _ He)). cbn [eval] in H. rewrite filter_map_len in H. apply Nat.leb_le in H.
      destruct (filter (fun m => eval a (odd_overlap m e)) (vs_stabs gens num_anc)) as [|m l] eqn:EF; [cbn in H; lia|].
      assert (Hm : In m (m :: l)) by (left; auto). rewrite <- EF in Hm. apply filter_In in Hm as [Hm Em]. destruct (vs_stab_eval a num_anc m Hm) as (anc & Ha & Lm & EE). exists anc. split; auto.
      rewrite (overlap_eval a m anc e Lm (wf_in n faults e WF He) EE) in Em. now apply Nat.eqb_eq.
    - intros H x Hx. apply in_map_iff in Hx as (e & <- & He). destruct (H e He) as (anc & Ha & O). cbn [eval]. rewrite filter_map_len. apply Nat.leb_le.
      destruct (vs_stab_mk a num_anc anc Ha) as (m & Hm & Lm & EE). assert (Hm' : In m (filter (fun m => eval a (odd_overlap m e)) (vs_stabs gens num_anc))).
      { apply filter_In. split; auto. rewrite (overlap_eval a m anc e Lm (wf_in n faults e WF He) EE). now apply Nat.eqb_eq. }
      destruct (filter _ _); [destruct Hm'|cbn; lia]. }
  rewrite Y. reflexivity. Qed.
Lemma vs_fold (m : z3model vs_var Empty_set) anc : fold_left (fun v g => if a_bool (completion m) (Mv anc g) then vxor v (nth g gens []) else v) (seq 0 (length gens)) (vzero n) = vstab (completion m) anc.
Proof. unfold vstab, anc_comb. set (f := fun g => a_bool (completion m) (Mv anc g)).
  assert (G : forall M p v, wf n M -> length v = n -> (forall i, i < length M -> nth i M [] = nth (p + i) gens []) ->
    fold_left (fun v g => if f g then vxor v (nth g gens []) else v) (seq p (length M)) v = vxor v (lincomb n (map f (seq p (length M))) M)).
  { induction M as [|r M IH]; intros p v WM Lv H; cbn [length seq fold_left map lincomb].
    - symmetry. apply vxor_zero_r. auto.
    - apply wf_cons in WM as [Lr WM]. pose proof (H 0 ltac:(cbn; lia)) as H0. rewrite Nat.add_0_r in H0. cbn [nth] in H0. rewrite <- H0.
      rewrite IH; auto.
      + destruct (f p); auto. symmetry. apply vxor_assoc.
      + destruct (f p); auto. apply vxor_length'; auto.
      + intros i Hi. specialize (H (S i) ltac:(cbn; lia)). cbn [nth] in H. rewrite H. f_equal. lia. }
  rewrite G; auto using vzero_length. apply vxor_zero_l. now apply lincomb_length. Qed.
Lemma overlap_dot s f : length s = n -> length f = n -> overlap s f = 1 -> dot s f = true.
Proof. intros Ls Lf H. rewrite (dot_seq n) by auto. unfold overlap in H. now rewrite H. Qed.
Lemma vs_sound solver faults num_anc num_cnots ms : solver_ok 1 solver -> wf n faults -> verification_stabilizers solver n gens faults num_anc num_cnots = Some ms ->
  length ms = num_anc /\ (forall m, In m ms -> span n gens m) /\ (forall e, In e faults -> exists m, In m ms /\ overlap m e = 1) /\ list_sum (map weight ms) <= num_cnots.
Proof. intros OK WF. unfold verification_stabilizers. pose proof (OK (vs_query n gens faults num_anc num_cnots)) as A. destruct (solver _) as [m|]; [|discriminate]. intros [= <-].
  rewrite (map_ext _ (fun anc => vstab (completion m) anc)) by (intros; apply vs_fold). destruct A as (S & _). apply vs_eval in S; auto. destruct S as [S1 S2]. split; [now rewrite map_length, seq_length|].
  split; [|split].
  - intros x Hx. apply in_map_iff in Hx as (anc & <- & _). exists (anc_comb (completion m) (length gens) anc). split; auto. unfold anc_comb. now rewrite map_length, seq_length.
  - intros e He. destruct (S1 e He) as (anc & Ha & O). exists (vstab (completion m) anc). split; auto. apply in_map. apply in_seq. lia.
  - now rewrite map_map. Qed.
Lemma vs_complete solver faults num_anc num_cnots : solver_ok 1 solver -> wf n faults -> verification_stabilizers solver n gens faults num_anc num_cnots = None ->
  forall ms, length ms = num_anc -> (forall m, In m ms -> span n gens m) -> list_sum (map weight ms) <= num_cnots -> exists e, In e faults /\ forall m, In m ms -> overlap m e <> 1.
Proof. intros OK WF. unfold verification_stabilizers. pose proof (OK (vs_query n gens faults num_anc num_cnots)) as A. destruct (solver _) as [m|]; [discriminate|]. intros _ ms L SP WT. cbn in A.
  assert (C : exists cs, length cs = num_anc /\ Forall2 (fun c m => length c = length gens /\ lincomb n c gens = m) cs ms).
  { clear - SP L. revert num_anc L. induction ms as [|m ms IH]; intros k L; [exists []; cbn in *; split; auto|]. destruct (SP m (or_introl eq_refl)) as (c & Hc). 
    destruct (IH (fun x H => SP x (or_intror H)) (length ms) eq_refl) as (cs & Lc & F). exists (c :: cs). split; [cbn in *; lia|]. constructor; auto. }
  destruct C as (cs & Lc & F).
  set (a := mkAsg (fun v => match v with Mv anc g => nth g (nth anc cs []) false end) (fun w : Empty_set => match w with end)).
  assert (VS : forall anc, anc < num_anc -> vstab a anc = nth anc ms []).
  { intros anc Ha. unfold vstab, anc_comb, a. cbn [a_bool]. destruct (Forall2_nth_lt _ [] [] _ _ F anc ltac:(lia)) as [E1 E2]. rewrite map_seq_vec by auto. exact E2. }
  assert (B : forall w : Empty_set, a_bv a w < 1) by (intros []). destruct (A a B) as (q & Hq & Eq).
  destruct (existsb (fun e => negb (existsb (fun m => overlap m e =? 1) ms)) faults) eqn:EX.
  - apply existsb_exists in EX as (e & He & X). exists e. split; auto. intros m Hm O. apply negb_true_iff in X. assert (T : existsb (fun m => overlap m e =? 1) ms = true) by (apply existsb_exists; exists m; split; auto; now apply Nat.eqb_eq). congruence.
  - exfalso. assert (SAT : forall f, In f (vs_query n gens faults num_anc num_cnots) -> eval a f = true).
    { apply vs_eval; auto. split.
      - intros e He. destruct (existsb (fun m => overlap m e =? 1) ms) eqn:EM.
        + apply existsb_exists in EM as (m & Hm & O). apply Nat.eqb_eq in O. apply In_nth with (d := []) in Hm as (anc & Ha & <-). exists anc. split; [lia|]. now rewrite VS by lia.
        + assert (T : existsb (fun e => negb (existsb (fun m => overlap m e =? 1) ms)) faults = true) by (apply existsb_exists; exists e; rewrite EM; auto). congruence.
      - rewrite (map_ext_in _ (fun anc => weight (nth anc ms []))) by (intros anc Ha; apply in_seq in Ha; rewrite VS; auto; lia). rewrite <- (map_map (fun anc => nth anc ms []) weight), <- L, map_nth_seq. auto. }
    rewrite (SAT q Hq) in Eq. discriminate. Qed.
End VS.
