(** * VerifProofs: set cover, coset leaders, verification stabilizers *)
From Verif Require Export VerifModel Z3Proofs.
Local Open Scope nat_scope.

(** ** greedy set cover *)
Lemma nth_vand a b i : length a = length b -> nth i (vand a b) false = nth i a false && nth i b false.
Proof. unfold vand. revert b i. induction a as [|x a IH]; intros [|y b] [|i] H; cbn in *; auto; try discriminate. Qed.
Lemma nth_vminus a b i : length a = length b -> nth i (vminus a b) false = nth i a false && negb (nth i b false).
Proof. unfold vminus. revert b i. induction a as [|x a IH]; intros [|y b] [|i] H; cbn in *; auto; try discriminate. Qed.
Lemma vminus_length n a b : length a = n -> length b = n -> length (vminus a b) = n.
Proof. intros <- H. unfold vminus. rewrite map_length, combine_length. lia. Qed.
Lemma vand_length n a b : length a = n -> length b = n -> length (vand a b) = n.
Proof. intros <- H. unfold vand. rewrite map_length, combine_length. lia. Qed.
Lemma weight_vminus a b : length a = length b -> weight (vminus a b) + weight (vand b a) = weight a.
Proof. unfold vminus, vand. revert b. induction a as [|x a IH]; intros [|y b] H; cbn in *; try discriminate; auto.
  specialize (IH b ltac:(lia)). destruct x, y; cbn; lia. Qed.
Lemma filter_map_len {A B} (f : A -> B) p l : length (filter p (map f l)) = length (filter (fun x => p (f x)) l).
Proof. induction l as [|x l IH]; auto. cbn [map filter]. destruct (p (f x)); cbn [length]; auto. Qed.
Lemma weight_seq n v : length v = n -> weight v = length (filter (fun i => nth i v false) (seq 0 n)).
Proof. intros <-. induction v as [|x v IH]; auto. cbn [weight length seq filter]. change (nth 0 (x :: v) false) with x. rewrite <- seq_shift.
  assert (E : length (filter (fun i => nth i (x :: v) false) (map S (seq 0 (length v)))) = weight v) by (rewrite filter_map_len; rewrite IH; reflexivity).
  destruct x; cbn [length]; rewrite E; reflexivity. Qed.
Lemma weight_zero_iff v : weight v = 0 <-> forall i, nth i v false = false.
Proof. split.
  - intros H i. destruct (nth i v false) eqn:E; auto. apply weight_pos in E. lia.
  - intros H. induction v as [|x v IH]; auto. cbn [weight]. pose proof (H 0) as H0. cbn in H0. subst x. rewrite IH; auto. intros i. apply (H (S i)). Qed.
Lemma pymax_in u mp l : forall b, In (pymax u mp b l) (b :: l).
Proof. induction l as [|c l IH]; intros b; cbn [pymax]; [left; auto|]. destruct (key_lt u mp b c); destruct (IH c) as [E|E], (IH b) as [E'|E']; cbn; auto. Qed.
Lemma key_lt_le u mp a b : key_lt u mp a b = true -> weight (vand a u) <= weight (vand b u).
Proof. unfold key_lt. intros H. apply orb_true_iff in H as [H|H]; [apply Nat.ltb_lt in H; lia|]. apply andb_true_iff in H as [H _]. apply Nat.eqb_eq in H. lia. Qed.
Lemma key_nlt_le u mp a b : key_lt u mp a b = false -> weight (vand b u) <= weight (vand a u).
Proof. unfold key_lt. intros H. apply orb_false_iff in H as [H _]. apply Nat.ltb_ge in H. auto. Qed.
Lemma pymax_max u mp l : forall b c, In c (b :: l) -> weight (vand c u) <= weight (vand (pymax u mp b l) u).
Proof. induction l as [|d l IH]; intros b c H; cbn [pymax]; [destruct H as [H|[]]; subst; auto|].
  destruct (key_lt u mp b d) eqn:E.
  - destruct H as [H|[H|H]]; [subst c|subst c|]; try (apply IH; cbn; auto; fail). apply key_lt_le in E. specialize (IH d d (or_introl eq_refl)). lia.
  - destruct H as [H|[H|H]]; [subst c|subst c|]; try (apply IH; cbn; auto; fail). apply key_nlt_le in E. specialize (IH b b (or_introl eq_refl)). lia. Qed.

(** [rest n cover]: the elements not yet covered *)
Definition uncovered (cover : list fset) (i : nat) : bool := negb (existsb (fun c => nth i c false) cover).
Definition gain (n : nat) (cover : list fset) (c : fset) : nat := length (filter (fun i => uncovered cover i && nth i c false) (seq 0 n)).
Definition rest_ok (n : nat) (u : fset) (cover : list fset) : Prop := length u = n /\ forall i, i < n -> nth i u false = uncovered cover i.
Lemma rest_gain n u cover c : rest_ok n u cover -> length c = n -> weight (vand c u) = gain n cover c.
Proof. intros [L H] Lc. rewrite (weight_seq n) by (apply vand_length; auto). unfold gain. f_equal. apply filter_ext_in. intros i Hi. apply in_seq in Hi.
  rewrite nth_vand by lia. rewrite H by lia. apply andb_comm. Qed.
Definition greedy_chain (n : nat) (cands cover : list fset) : Prop :=
  forall pre c post, cover = pre ++ c :: post -> 0 < gain n pre c /\ forall c', In c' cands -> gain n pre c' <= gain n pre c.
Lemma setadd_new c l : fmem c l = false -> setadd c l = l ++ [c].
Proof. unfold setadd. now intros ->. Qed.
Lemma fmem_in c l : fmem c l = true <-> In c l.
Proof. unfold fmem. rewrite existsb_exists. split; [intros (x & H & E); apply veqb_eq in E; now subst|intros H; exists c; split; auto; now apply veqb_eq]. Qed.
Lemma fmem_false c l : fmem c l = false <-> ~ In c l.
Proof. rewrite <- fmem_in. destruct (fmem c l); intuition congruence. Qed.
Lemma rest_step n u cover best : rest_ok n u cover -> length best = n -> rest_ok n (vminus u best) (cover ++ [best]).
Proof. intros [L H] Lb. split; [now apply vminus_length|]. intros i Hi. rewrite nth_vminus by lia. rewrite H by auto. unfold uncovered. rewrite existsb_app. cbn [existsb].
  rewrite orb_false_r, negb_orb. auto. Qed.
Lemma gain_in n cover c : In c cover -> gain n cover c = 0.
Proof. intros H. unfold gain. rewrite (filter_ext _ (fun _ => false)); [induction (seq 0 n); auto|]. intros i. unfold uncovered.
  destruct (nth i c false) eqn:E; [|apply andb_false_r]. replace (existsb (fun c => nth i c false) cover) with true; auto. symmetry. apply existsb_exists. eauto. Qed.
Lemma stuck_loop cands mp u : forall c cs fuel cover, cands = c :: cs -> weight u <> 0 -> vminus u (pymax u mp c cs) = u -> set_cover_loop fuel cands mp u cover = Unfinished.
Proof. intros c cs fuel. induction fuel as [|k IH]; intros cover E W H; cbn [set_cover_loop]; rewrite (proj2 (Nat.eqb_neq _ _) W); auto. subst cands. rewrite H. apply IH; auto. Qed.
Lemma vminus_stuck n u b : length u = n -> length b = n -> weight (vand b u) = 0 -> vminus u b = u.
Proof. intros L Lb H. apply (vec_ext n); [now apply vminus_length|auto|]. intros i Hi. rewrite nth_vminus by lia. pose proof (proj1 (weight_zero_iff _) H i) as Z. rewrite nth_vand in Z by lia.
  destruct (nth i u false), (nth i b false); cbn in *; congruence. Qed.

Lemma set_cover_sound n cands mp : Forall (fun c => length c = n) cands -> forall fuel u cover0 cover, rest_ok n u cover0 -> incl cover0 cands -> greedy_chain n cands cover0 ->
  set_cover_loop fuel cands mp u cover0 = Done cover -> incl cover cands /\ greedy_chain n cands cover /\ forall i, i < n -> uncovered cover i = false.
Proof. intros FC. induction fuel as [|k IH]; intros u cover0 cover RO IC GC; cbn [set_cover_loop].
  - destruct (weight u =? 0) eqn:E; [|discriminate]. intros [= <-]. apply Nat.eqb_eq in E. split; auto. split; auto. intros i Hi. rewrite <- (proj2 RO) by auto. now apply weight_zero_iff.
  - destruct (weight u =? 0) eqn:E. { intros [= <-]. apply Nat.eqb_eq in E. split; auto. split; auto. intros i Hi. rewrite <- (proj2 RO) by auto. now apply weight_zero_iff. }
    apply Nat.eqb_neq in E. destruct cands as [|c cs]; [discriminate|]. set (best := pymax u mp c cs). assert (HB : In best (c :: cs)) by apply pymax_in.
    assert (LB : length best = n) by (apply (proj1 (Forall_forall _ _) FC); auto). 
    destruct (Nat.eq_dec (weight (vand best u)) 0) as [Z|NZ].
    + pose proof (vminus_stuck n u best (proj1 RO) LB Z) as SV. rewrite SV. rewrite (stuck_loop _ mp u c cs k _ eq_refl E SV). discriminate.
    + assert (NI : ~ In best cover0). { intros H. apply NZ. rewrite (rest_gain n u cover0) by auto. now apply gain_in. }
      rewrite setadd_new by (now apply fmem_false). apply IH.
      * now apply rest_step.
      * intros x Hx. apply in_app_iff in Hx as [Hx|[Hx|[]]]; subst; auto.
      * intros pre d post ED. destruct (list_eq_dec (list_eq_dec bool_dec) post []) as [->|NP].
        -- apply app_inj_tail in ED as [<- <-]. rewrite <- (rest_gain n u) by auto. split; [lia|]. intros c' Hc'. rewrite <- (rest_gain n u) by (auto; apply (proj1 (Forall_forall _ _) FC); auto).
           apply pymax_max. auto.
        -- destruct (exists_last NP) as (post' & z & ->). rewrite app_comm_cons, app_assoc in ED. apply app_inj_tail in ED as [ED _]. apply (GC pre d post'). auto. Qed.
Lemma set_cover_complete n cands mp : Forall (fun c => length c = n) cands -> (forall i, i < n -> exists c, In c cands /\ nth i c false = true) ->
  forall fuel u cover0, length u = n -> weight u <= fuel -> exists cover, set_cover_loop fuel cands mp u cover0 = Done cover.
Proof. intros FC COV. induction fuel as [|k IH]; intros u cover0 L W; cbn [set_cover_loop].
  - replace (weight u) with 0 by lia. cbn. eauto.
  - destruct (weight u =? 0) eqn:E; [eauto|]. apply Nat.eqb_neq in E.
    assert (EX : exists i, i < n /\ nth i u false = true).
    { destruct (existsb (fun i => nth i u false) (seq 0 n)) eqn:EE. - apply existsb_exists in EE as (i & Hi & Hn). apply in_seq in Hi. exists i. split; auto. lia.
      - exfalso. apply E. apply weight_zero_iff. intros i. destruct (Nat.lt_ge_cases i n) as [Hi|Hi]; [|apply nth_overflow; lia]. destruct (nth i u false) eqn:EN; auto.
        rewrite <- EE. symmetry. apply existsb_exists. exists i. split; auto. apply in_seq. lia. }
    destruct EX as (i & Hi & Ni). destruct (COV i Hi) as (c0 & Hc0 & Nc0). destruct cands as [|c cs]; [destruct Hc0|]. set (best := pymax u mp c cs).
    assert (HB : In best (c :: cs)) by apply pymax_in. pose proof (proj1 (Forall_forall _ _) FC) as FC'.
    assert (LB : length best = n) by (apply FC'; auto). assert (L0 : length c0 = n) by (apply FC'; auto).
    pose proof (pymax_max u mp cs c c0 Hc0) as MX. fold best in MX.
    assert (0 < weight (vand c0 u)) by (apply (weight_pos _ i); rewrite nth_vand by (unfold fset, vec in *; lia); now rewrite Nc0, Ni).
    pose proof (weight_vminus u best ltac:(unfold fset, vec in *; lia)). apply IH; [now apply vminus_length|lia]. Qed.
Lemma rest_init n : rest_ok n (repeat true n) [].
Proof. split; [apply repeat_length|]. intros i Hi. unfold uncovered. cbn. rewrite nth_indep with (d' := true) by (rewrite repeat_length; auto). apply nth_repeat. Qed.
Lemma weight_repeat n : weight (repeat true n) = n.
Proof. induction n; cbn; auto. Qed.
Lemma set_cover_diverges n cands mp i : Forall (fun c => length c = n) cands -> cands <> [] -> i < n -> (forall c, In c cands -> nth i c false = false) ->
  forall fuel, set_cover fuel n cands mp = Unfinished.
Proof. intros FC NE Hi NC fuel. unfold set_cover. assert (G : forall u cover0, length u = n -> nth i u false = true -> set_cover_loop fuel cands mp u cover0 = Unfinished).
  { induction fuel as [|k IH]; intros u cover0 L N; cbn [set_cover_loop].
    - pose proof (weight_pos _ _ N). destruct (weight u); [lia|]. auto.
    - pose proof (weight_pos _ _ N). destruct (weight u) eqn:EW; [lia|]. cbn [Nat.eqb]. destruct cands as [|c cs]; [congruence|]. set (best := pymax u mp c cs).
      assert (HB : In best (c :: cs)) by apply pymax_in. pose proof (proj1 (Forall_forall _ _) FC best HB) as LB.
      apply IH; [now apply vminus_length|]. rewrite nth_vminus by (unfold fset, vec in *; lia). now rewrite N, NC. }
  apply G; [apply repeat_length|]. now rewrite (proj2 (rest_init n)). Qed.
