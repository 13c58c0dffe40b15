(** * FaultProofs: reduction and combination of fault sets *)
From Verif Require Export FaultModel VerifProofs3.
Local Open Scope nat_scope.

Lemma vinsert_in v l x : In x (vinsert v l) <-> x = v \/ In x l.
Proof. induction l as [|w l IH]; cbn [vinsert]; [cbn; intuition|]. destruct (veqb v w) eqn:E; [apply veqb_eq in E; subst; cbn; intuition|]. destruct (vlt v w); cbn [In]; [intuition|]. rewrite IH. intuition. Qed.
Lemma np_unique_in l x : In x (np_unique l) <-> In x l.
Proof. induction l as [|v l IH]; cbn [np_unique fold_right]; [tauto|]. fold (np_unique l). rewrite vinsert_in, IH. cbn. intuition. Qed.

(** e is the XOR of exactly k members of B *)
Fixpoint ksum (n : nat) (B : vec -> Prop) (k : nat) (e : vec) : Prop :=
  match k with O => e = vzero n | S k' => exists a b, ksum n B k' a /\ B b /\ e = vxor a b end.
Lemma ksum_length n (B : vec -> Prop) k e : (forall b, B b -> length b = n) -> ksum n B k e -> length e = n.
Proof. intros WB. revert e. induction k as [|k IH]; cbn; intros e; [intros ->; apply vzero_length|]. intros (a & b & Ha & Hb & ->). apply vxor_length'; auto. Qed.
Lemma ksum_mono n (B B' : vec -> Prop) k e : (forall b, B b -> B' b) -> ksum n B k e -> ksum n B' k e.
Proof. intros H. revert e. induction k as [|k IH]; cbn; auto. intros e (a & b & Ha & Hb & ->). exists a, b. auto. Qed.
Lemma ksum_ext n (B B' : vec -> Prop) k e : (forall b, B b <-> B' b) -> (ksum n B k e <-> ksum n B' k e).
Proof. intros H. split; apply ksum_mono; intros b; apply H. Qed.
Lemma ksum_split n (B A : vec -> Prop) k e : (forall b, B b -> length b = n) -> (forall b, A b -> length b = n) ->
  (ksum n (fun b => B b \/ A b) (S k) e <-> ksum n B (S k) e \/ exists u a, ksum n (fun b => B b \/ A b) k u /\ A a /\ e = vxor u a).
Proof. intros WB WA. split.
  - revert e. induction k as [|k IH]; intros e (x & y & Hx & [Hy|Hy] & ->).
    + left. exists x, y. auto.
    + right. exists x, y. auto.
    + destruct (IH x Hx) as [H|(u & a & Hu & Ha & ->)].
      * left. exists x, y. auto.
      * right. exists (vxor u y), a. split; [exists u, y; auto|]. split; auto. rewrite <- !vxor_assoc. f_equal. apply vxor_comm.
    + right. exists x, y. auto.
  - intros [H|(u & a & Hu & Ha & ->)]; [revert H; apply ksum_mono; auto|]. exists u, a. auto. Qed.
Lemma sums_in A B e : In e (sums A B) <-> exists a b, In a A /\ In b B /\ e = vxor a b.
Proof. unfold sums. rewrite in_flat_map. split.
  - intros (a & Ha & H). apply in_map_iff in H as (b & <- & Hb). eauto.
  - intros (a & b & Ha & Hb & ->). exists a. split; auto. apply in_map_iff. eauto. Qed.

(** ** reduction *)
Section Reduce.
Variables (n : nat) (opt : cl_solver) (stabs : mat).
Hypotheses (OK : optimizer_ok 1 opt) (WS : wf n stabs).
Notation equiv a b := (span n stabs (vxor a b)).
Lemma equiv_sym a b : equiv a b -> equiv b a.
Proof. now rewrite vxor_comm. Qed.
Lemma equiv_trans a b c : length a = n -> length b = n -> length c = n -> equiv a b -> equiv b c -> equiv a c.
Proof. intros La Lb Lc H1 H2. pose proof (span_vxor n stabs _ _ WS H1 H2) as H. rewrite <- vxor_assoc, (vxor_cancel_l n) in H; auto. Qed.
Lemma coset_min f e (m : nat) : length e = n -> length f = n -> equiv e f -> (forall w, span n stabs w -> m <= weight (vxor e w)) -> m <= weight f.
Proof. intros Le_ Lf E H. specialize (H _ E). now rewrite (vxor_cancel_l n) in H. Qed.

(** the result of removing trivial faults *)
Lemma trivial_sound faults mw k f : wf n faults -> In f (remove_trivial_faults opt faults stabs mw k) ->
  length f = n /\ mw * k < weight f /\ (exists e, In e faults /\ equiv e f) /\ (forall w, span n stabs w -> weight f <= weight (vxor f w)).
Proof. intros WF H. unfold remove_trivial_faults in H. rewrite np_unique_in in H. apply filter_In in H as [H W]. apply Nat.ltb_lt in W. apply in_map_iff in H as (e & <- & He).
  pose proof (wf_in n faults e WF He) as Lee. destruct (coset_leader_ok opt n e stabs OK Lee WS) as (S & L & M). split; auto. split; auto. split; [exists e; auto|].
  intros w Hw. assert (Lw : length w = n) by exact (span_length n stabs w WS Hw). specialize (M (vxor (vxor e (coset_leader opt e stabs)) w) ltac:(apply span_vxor; auto)).
  rewrite <- (vxor_assoc e), (vxor_cancel_l n) in M; auto. now apply vxor_length'. Qed.
Lemma trivial_complete faults mw k e : wf n faults -> In e faults -> (forall w, span n stabs w -> mw * k < weight (vxor e w)) ->
  exists f, In f (remove_trivial_faults opt faults stabs mw k) /\ equiv e f.
Proof. intros WF He H. pose proof (wf_in n faults e WF He) as Lee. destruct (coset_leader_ok opt n e stabs OK Lee WS) as (S & L & M). exists (coset_leader opt e stabs). split; auto.
  unfold remove_trivial_faults. rewrite np_unique_in. apply filter_In. split; [now apply (in_map (fun f => coset_leader opt f stabs))|]. apply Nat.ltb_lt. apply (coset_min _ e (Datatypes.S (mw * k))); auto. Qed.
Lemma trivial_wf faults mw k : wf n faults -> wf n (remove_trivial_faults opt faults stabs mw k).
Proof. intros WF. apply Forall_forall. intros f Hf. eapply trivial_sound; eauto. Qed.

(** the result of removing equivalent faults *)
Lemma ext_span f1 f2 : length f1 = n -> length f2 = n -> (span n (stabs ++ [f1]) f2 <-> span n stabs f2 \/ equiv f1 f2).
Proof. intros L1 L2. assert (P : span n (stabs ++ [f1]) f2 <-> span n (f1 :: stabs) f2).
  { apply span_perm; [apply wf_app; split; auto; constructor; auto; constructor|constructor; auto|]. intros r. rewrite in_app_iff. cbn. tauto. }
  rewrite P, span_cons_iff by auto. tauto. Qed.
Lemma mark_in stabs1 l f b : wf n stabs1 -> Forall (fun p => length (fst p) = n) l ->
  (In (f, b) (mark_equiv n stabs1 l) <-> exists r, In (f, r) l /\ (b = true <-> r = true \/ span n stabs1 f)).
Proof. intros W1 FL. induction FL as [|[g r] l Lg _ IH]; cbn [mark_equiv In]; [firstorder|]. rewrite IH. cbn in Lg.
  assert (RK : (rk n (stabs1 ++ [g]) =? rk n stabs1) = true <-> span n stabs1 g) by (rewrite Nat.eqb_eq; now apply rk_snoc). split.
  - intros [H|(r' & H1 & H2)].
    + injection H as <- <-. exists r. split; auto. rewrite orb_true_iff, RK. tauto.
    + exists r'. auto.
  - intros (r' & [H|H] & E); [|right; exists r'; auto]. left. injection H as <- <-. f_equal. apply eq_true_iff_eq. rewrite orb_true_iff, RK. tauto. Qed.
Lemma mark_length stabs1 l : length (mark_equiv n stabs1 l) = length l.
Proof. induction l as [|[g r] l IH]; cbn; auto. Qed.
Lemma mark_wf stabs1 l : Forall (fun p => length (fst p) = n) l -> Forall (fun p => length (fst p) = n) (mark_equiv n stabs1 l).
Proof. induction 1 as [|[g r] l H _ IH]; cbn; constructor; auto. Qed.
Lemma rse_spec fuel : forall l, length l <= fuel -> Forall (fun p => length (fst p) = n) l -> let R := rse_loop fuel n stabs l in
  (forall f, In f R -> In (f, false) l /\ ~ span n stabs f) /\
  (forall f, In (f, false) l -> ~ span n stabs f -> exists r, In r R /\ equiv f r) /\
  (forall pre a mid b post, R = pre ++ a :: mid ++ b :: post -> ~ equiv a b).
Proof. induction fuel as [|fuel IH]; intros l Hl WL; cbn [rse_loop].
  - destruct l; [|cbn in Hl; lia]. split; [intros f []|]. split; [intros f []|]. intros [|] a mid b post H; discriminate.
  - destruct l as [|[f1 r1] l]; [split; [intros f []|]; split; [intros f []|]; intros [|] a mid b post H; discriminate|]. cbn in Hl. apply le_S_n in Hl. apply Forall_cons_iff in WL as [L1 WL]. cbn in L1. destruct r1.
    + destruct (IH l Hl WL) as (A & B & C). split; [intros f Hf; destruct (A f Hf); split; auto; right; auto|]. split; auto. intros f [H|H]; [discriminate|]. auto.
    + assert (RK : (rk n (stabs ++ [f1]) =? rk n stabs) = true <-> span n stabs f1) by (rewrite Nat.eqb_eq; now apply rk_snoc). destruct (_ =? _).
      * destruct (IH l Hl WL) as (A & B & C). split; [intros f Hf; destruct (A f Hf); split; auto; right; auto|]. split; auto. intros f [H|H] N; [injection H as <-; exfalso; apply N, RK; auto|]. auto.
      * assert (N1 : ~ span n stabs f1) by (intros H; apply RK in H; discriminate). assert (W1 : wf n (stabs ++ [f1])) by (apply wf_app; split; auto; constructor; auto; constructor).
        destruct (IH (mark_equiv n (stabs ++ [f1]) l) ltac:(rewrite mark_length; exact Hl) (mark_wf _ _ WL)) as (A & B & C).
        assert (LIN : forall f r, In (f, r) l -> length f = n) by (intros f r H; apply (proj1 (Forall_forall _ _) WL (f, r) H)).
        split; [|split].
        -- intros f [H|H]; [subst f; split; auto; left; auto|]. destruct (A f H) as [H1 H2]. split; auto. right. apply mark_in in H1 as (r & H1 & H3); auto. destruct r; auto. destruct H3 as [_ H3]. discriminate H3; auto.
        -- intros f [H|H] N; [injection H as <-; exists f1; split; [left; auto|]; rewrite (vxor_self' n) by auto; apply span_zero|].
           destruct (span_dec n (stabs ++ [f1]) f) as [S|NS].
           ++ apply ext_span in S as [S|S]; eauto; [contradiction|]. exists f1. split; [left; auto|]. now apply equiv_sym.
           ++ destruct (B f) as (r & Hr & E); auto. { apply mark_in; auto. exists false. split; auto. split; [discriminate|]. intros [X|X]; [discriminate|contradiction]. } exists r. split; [right; auto|auto].
        -- intros pre a mid b post E. destruct pre as [|p pre]; cbn in E; injection E as E1 E2; [|apply (C pre a mid b post); auto]. subst a. intros X.
           destruct (A b) as [H1 _]. { refine (eq_ind_r (In b) _ E2). apply in_app_iff. right. left. auto. } apply mark_in in H1 as (r & H1 & H3); auto. destruct H3 as [_ H3]. discriminate H3. right. apply ext_span; eauto. Qed.
Lemma rse_ok faults : wf n faults -> let R := remove_stabilizer_equivalent_faults n faults stabs in
  (forall f, In f R -> In f faults /\ ~ span n stabs f) /\ (forall f, In f faults -> ~ span n stabs f -> exists r, In r R /\ equiv f r) /\
  (forall pre a mid b post, R = pre ++ a :: mid ++ b :: post -> ~ equiv a b).
Proof. intros WF. unfold remove_stabilizer_equivalent_faults. destruct (rse_spec (length faults) (map (fun f => (f, false)) faults)) as (A & B & C).
  - now rewrite map_length.
  - apply Forall_forall. intros p Hp. apply in_map_iff in Hp as (f & <- & Hf). cbn. now apply (wf_in n faults).
  - split; [|split]; auto.
    + intros f Hf. destruct (A f Hf) as [H N]. split; auto. apply in_map_iff in H as (g & E & Hg). injection E as <-. auto.
    + intros f Hf. apply B. apply in_map_iff. eauto. Qed.
End Reduce.
