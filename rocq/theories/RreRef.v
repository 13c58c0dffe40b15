(** * RreRef: an executable reduced row echelon form meeting the contract of ldpc.mod2.reduced_row_echelon *)
From Verif Require Export PrepProofs2.
Local Open Scope nat_scope.

Fixpoint findrow (j : nat) (R : mat) : option (vec * mat) :=
  match R with
  | [] => None
  | r :: R' => if nth j r false then Some (r, R') else
      match findrow j R' with Some (p, R'') => Some (p, r :: R'') | None => None end
  end.
Definition clear_with (j : nat) (p r : vec) : vec := if nth j r false then vxor p r else r.
Fixpoint gj (cols : list nat) (D R : mat) : mat * mat :=
  match cols with
  | [] => (D, R)
  | j :: cols' => match findrow j R with
      | None => gj cols' D R
      | Some (p, R') => gj cols' (map (clear_with j p) D ++ [p]) (map (clear_with j p) R')
      end
  end.
Definition rre_ref (n : nat) (M : mat) : mat := let '(D, R) := gj (seq 0 n) [] M in D ++ R.

Lemma findrow_none j R : findrow j R = None -> forall r, In r R -> nth j r false = false.
Proof. induction R as [|a R IH]; cbn; intros H r Hr; [contradiction|]. destruct (nth j a false) eqn:E; [discriminate|]. destruct (findrow j R) as [[]|]; [discriminate|]. destruct Hr as [<-|Hr]; auto. Qed.
Lemma findrow_some j R p R' : findrow j R = Some (p, R') -> nth j p false = true /\ length R = S (length R') /\ (forall r, In r R <-> r = p \/ In r R').
Proof. revert p R'. induction R as [|a R IH]; cbn; intros p R' H; [discriminate|]. destruct (nth j a false) eqn:E.
  - injection H as <- <-. repeat split; auto; intros [|]; auto.
  - destruct (findrow j R) as [[q Q]|]; [|discriminate]. injection H as <- <-. destruct (IH q Q eq_refl) as (A & B & C). split; auto. split; [cbn; lia|].
    intros r. cbn. rewrite C. tauto. Qed.

Definition gjinv (n j : nat) (M D R : mat) (piv : list nat) : Prop :=
  wf n D /\ wf n R /\ length D + length R = length M /\ (forall v, span n (D ++ R) v <-> span n M v) /\ length piv = length D /\
  (forall k, k < length D -> nth k piv 0 < j) /\
  (forall k l, k < length D -> l < length D -> nth (nth k piv 0) (nth l D []) false = (l =? k)) /\
  (forall r c, In r R -> c < j -> nth c r false = false).

Lemma clear_length n j p r : length p = n -> length r = n -> length (clear_with j p r) = n.
Proof. intros. unfold clear_with. destruct (nth j r false); auto. now apply vxor_length'. Qed.
Lemma gj_step n j M D R piv : j < n -> gjinv n j M D R piv -> exists piv',
  match findrow j R with
  | None => gjinv n (S j) M D R piv'
  | Some (p, R') => gjinv n (S j) M (map (clear_with j p) D ++ [p]) (map (clear_with j p) R') piv'
  end.
Proof. intros Hj (WD & WR & LE & SP & LP & PB & PU & RZ). destruct (findrow j R) as [[p R']|] eqn:E.
  - destruct (findrow_some _ _ _ _ E) as (Bp & LR & IN). exists (piv ++ [j]).
    assert (Lp : length p = n) by (apply (wf_in n R); auto; apply IN; auto).
    assert (WR' : wf n R') by (apply Forall_forall; intros r Hr; apply (wf_in n R); auto; apply IN; auto).
    assert (WM : forall Q, wf n Q -> wf n (map (clear_with j p) Q)) by (intros Q WQ; apply (wf_map_len n); auto; intros; now apply clear_length).
    assert (PZ : forall c, c < j -> nth c p false = false) by (intros c Hc; apply (RZ p c); auto; apply IN; auto).
    split; [apply wf_app; split; auto; repeat constructor; auto|]. split; auto. split; [rewrite app_length, !map_length; cbn; lia|]. split.
    { intros v. rewrite <- SP. split; apply span_incl; try (apply wf_app; split; auto; try (apply wf_app; split; auto; repeat constructor; auto)).
      - intros r Hr. assert (SPp : span n (D ++ R) p) by (apply span_in; [apply wf_app; auto|apply in_app_iff; right; apply IN; auto]).
        assert (G : forall q, In q D \/ In q R -> span n (D ++ R) (clear_with j p q)).
        { intros q Hq. assert (span n (D ++ R) q) by (apply span_in; [apply wf_app; auto|now apply in_app_iff]). unfold clear_with. destruct (nth j q false); auto. apply span_vxor; auto. apply wf_app; auto. }
        rewrite !in_app_iff in Hr. destruct Hr as [[Hr|[<-|[]]]|Hr]; auto; apply in_map_iff in Hr as (q & <- & Hq); apply G; auto. right. apply IN. auto.
      - intros r Hr. set (B := (map (clear_with j p) D ++ [p]) ++ map (clear_with j p) R').
        assert (WB : wf n B) by (apply wf_app; split; auto; apply wf_app; split; auto; repeat constructor; auto).
        assert (SPp : span n B p) by (apply span_in; auto; unfold B; rewrite !in_app_iff; left; right; now left).
        assert (G : forall q, length q = n -> In (clear_with j p q) B -> span n B q).
        { intros q Lq Hq. apply (span_in n B) in Hq; auto. unfold clear_with in Hq. destruct (nth j q false); auto.
          rewrite <- (vxor_cancel_l n p q) by auto. apply span_vxor; auto. }
        apply in_app_iff in Hr as [Hr|Hr].
        + apply G; [exact (wf_in n D r WD Hr)|]. unfold B. rewrite !in_app_iff. left. left. now apply in_map.
        + pose proof Hr as Hr'. apply IN in Hr as [->|Hr]; auto. apply G; [exact (wf_in n R r WR Hr')|]. unfold B. rewrite !in_app_iff. right. now apply in_map. }
    split; [rewrite !app_length, map_length; cbn; lia|]. rewrite app_length, map_length. cbn [length].
    split. { intros k Hk. destruct (Nat.eq_dec k (length D)) as [->|D0]; [rewrite app_nth2 by lia; rewrite LP, Nat.sub_diag; cbn; lia|]. rewrite app_nth1 by lia. specialize (PB k). lia. }
    assert (NC : forall c q, length q = n -> nth c (clear_with j p q) false = if nth j q false then xorb (nth c p false) (nth c q false) else nth c q false).
    { intros c q Lq. unfold clear_with. destruct (nth j q false); auto. rewrite nth_vxor; auto. unfold vec in *; lia. }
    split.
    { intros k l Hk Hl. assert (EL : nth l (map (clear_with j p) D ++ [p]) [] = if l =? length D then p else clear_with j p (nth l D [])).
      { destruct (Nat.eqb_spec l (length D)) as [->|Nl]; [rewrite app_nth2, map_length, Nat.sub_diag by (rewrite map_length; lia); auto|]. rewrite app_nth1 by (rewrite map_length; lia).
        rewrite nth_indep with (d' := clear_with j p []) by (rewrite map_length; lia). now rewrite map_nth. }
      assert (EP : nth k (piv ++ [j]) 0 = if k =? length D then j else nth k piv 0).
      { destruct (Nat.eqb_spec k (length D)) as [->|Nk]; [rewrite app_nth2, LP, Nat.sub_diag by lia; auto|]. rewrite app_nth1 by lia. auto. }
      rewrite EL, EP. destruct (Nat.eqb_spec l (length D)) as [->|Nl], (Nat.eqb_spec k (length D)) as [->|Nk].
      - now rewrite Nat.eqb_refl.
      - rewrite PZ by (apply PB; lia). symmetry. apply Nat.eqb_neq. lia.
      - rewrite NC by (apply (wf_in n D); auto; apply nth_In; lia). destruct (nth j (nth l D []) false) eqn:Eb; [rewrite Bp|]; symmetry; apply Nat.eqb_neq; lia.
      - rewrite NC by (apply (wf_in n D); auto; apply nth_In; lia). rewrite PZ by (apply PB; lia). rewrite xorb_false_l. rewrite PU by lia. now destruct (nth j (nth l D []) false). }
    intros r c Hr Hc. apply in_map_iff in Hr as (q & <- & Hq). assert (Lq : length q = n) by exact (wf_in n R' q WR' Hq). rewrite NC by auto.
    destruct (Nat.eq_dec c j) as [->|Dc]; [destruct (nth j q false) eqn:Eq; auto; now rewrite Bp|].
    rewrite PZ by lia. rewrite (RZ q c) by (try apply IN; auto; lia). now destruct (nth j q false).
  - exists piv. repeat split; auto; try (intros HH; apply SP; auto).
    + intros k Hk. specialize (PB k Hk). lia.
    + intros r c Hr Hc. destruct (Nat.eq_dec c j) as [->|]; [exact (findrow_none j R E r Hr)|]. apply RZ; auto. lia. Qed.

Lemma gj_inv n M cols : forall j D R piv, cols = seq j (n - j) -> j <= n -> gjinv n j M D R piv -> exists piv', gjinv n n M (fst (gj cols D R)) (snd (gj cols D R)) piv'.
Proof. induction cols as [|c cols IH]; intros j D R piv E Hj HI.
  - exists piv. cbn. destruct (Nat.eq_dec j n) as [->|N]; auto. exfalso. apply (f_equal (@length nat)) in E. rewrite seq_length in E. cbn in E. lia.
  - destruct (n - j) as [|d] eqn:Ed; [discriminate|]. cbn [seq] in E. injection E as -> E. cbn [gj].
    destruct (gj_step n j M D R piv ltac:(lia) HI) as (piv1 & H1). destruct (findrow j R) as [[p R']|]; apply (IH (S j) _ _ piv1); auto; try lia; rewrite E; f_equal; lia. Qed.

Theorem rre_ref_ok : rre_ok rre_ref.
Proof. intros n M W. unfold rre_ref.
  destruct (gj_inv n M (seq 0 n) 0 [] M []) as (piv & HI); [now rewrite Nat.sub_0_r|lia| |].
  { repeat split; cbn; auto; try constructor; try lia; try (intros; lia). }
  destruct (gj (seq 0 n) [] M) as [D R]. cbn [fst snd] in HI. destruct HI as (WD & WR & LE & SP & LP & PB & PU & RZ).
  assert (WA : wf n (D ++ R)) by (apply wf_app; auto).
  assert (RZ' : forall r, In r R -> r = vzero n).
  { intros r Hr. apply (vec_ext n); auto using vzero_length; [exact (wf_in n R r WR Hr)|]. intros c Hc. rewrite nth_vzero. auto. }
  assert (SD : forall v, span n D v <-> span n M v).
  { intros v. rewrite <- SP. split; [apply span_app_l; auto|]. apply span_incl; auto. intros r Hr. apply in_app_iff in Hr as [Hr|Hr]; [now apply span_in|]. rewrite (RZ' r Hr). apply span_zero. }
  assert (ID : indep n D).
  { intros c Hc E. apply (vec_ext (length D)); auto using vzero_length. intros k Hk. rewrite nth_vzero.
    apply (f_equal (fun v => nth (nth k piv 0) v false)) in E. rewrite nth_vzero, nth_lincomb in E by auto.
    assert (EC : col D (nth k piv 0) = unitv (length D) k).
    { apply (vec_ext (length D)); [apply col_length|apply unitv_length|]. intros l Hl. rewrite nth_col, nth_unitv by auto. apply PU; auto. }
    change (map (fun r => nth (nth k piv 0) r false) D) with (col D (nth k piv 0)) in E. rewrite EC in E. now rewrite dot_unitv_r in E by auto. }
  assert (RK : rk n M = length D).
  { symmetry. apply rk_unique; auto. apply (has_rank_span n D M); auto. now apply has_rank_indep. }
  split; auto. split; [rewrite app_length; lia|]. split; auto. split.
  - exists piv. split; [lia|]. intros k Hk. rewrite RK in Hk. split; [auto|]. apply (vec_ext (length M)); [rewrite col_length, app_length; lia|apply unitv_length|].
    intros l Hl. rewrite nth_col by (rewrite app_length; lia). rewrite nth_unitv by auto. destruct (lt_dec l (length D)) as [Ld|Ld].
    + rewrite app_nth1 by auto. apply PU; auto.
    + rewrite app_nth2 by lia. rewrite (RZ' (nth (l - length D) R [])) by (apply nth_In; lia). rewrite nth_vzero. symmetry. apply Nat.eqb_neq. lia.
  - intros k Hk. rewrite RK in Hk. rewrite app_nth2 by lia. destruct (lt_dec (k - length D) (length R)) as [L|L]; [left; apply RZ', nth_In; auto|right; apply nth_overflow; lia]. Qed.
