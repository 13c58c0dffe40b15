(** * Lin2: executable kernel and rank, orthogonal complements, rank-nullity, row rank = column rank.
    Pure specification/mathematics: nothing in this file models repository code. *)
From Verif Require Export Lin.

Definition identity (n : nat) : mat := map (unitv n) (seq 0 n).

(** first vector of K not orthogonal to r, and the others *)
Fixpoint pick (r : vec) (K : mat) : option (vec * mat) :=
  match K with
  | [] => None
  | k :: K' => if dot r k then Some (k, K')
               else match pick r K' with None => None | Some (b, R) => Some (b, k :: R) end
  end.

Definition kstep (K : mat) (r : vec) : mat :=
  match pick r K with
  | None => K
  | Some (b, R) => map (fun k => if dot r k then vxor k b else k) R
  end.

(** a basis of { x | M x = 0 } *)
Definition kernel (n : nat) (M : mat) : mat := fold_left kstep M (identity n).

(** executable rank *)
Definition rk (n : nat) (M : mat) : nat := n - length (kernel n M).

Definition in_kernel (n : nat) (M : mat) (x : vec) : Prop := length x = n /\ forall r, In r M -> dot r x = false.

Lemma identity_wf n : wf n (identity n).
Proof. unfold identity. apply Forall_map. apply Forall_forall. intros; apply unitv_length. Qed.

Lemma identity_length n : length (identity n) = n.
Proof. unfold identity; now rewrite map_length, seq_length. Qed.

Lemma lincomb_identity n x : length x = n -> lincomb n x (identity n) = x.
Proof. intros Hx. apply (vec_ext n); auto using lincomb_length, identity_wf. intros i Hi.
  rewrite nth_lincomb; auto using identity_wf; [|now rewrite identity_length].
  rewrite <- (dot_unitv_r n x i) by auto. f_equal. unfold col, identity. rewrite map_map.
  unfold unitv at 2. apply map_ext_in. intros j Hj. apply in_seq in Hj. rewrite nth_unitv by lia. apply Nat.eqb_sym. Qed.

Lemma identity_span n x : length x = n -> span n (identity n) x.
Proof. intros H. exists x. rewrite identity_length. split; auto using lincomb_identity. Qed.

Lemma identity_indep n : indep n (identity n).
Proof. intros c Hc E. rewrite identity_length in *. now rewrite lincomb_identity in E. Qed.

Lemma pick_None r K : pick r K = None -> forall k, In k K -> dot r k = false.
Proof. induction K as [|k K IH]; simpl; [tauto|]. destruct (dot r k) eqn:E; [discriminate|].
  destruct (pick r K) as [[b R]|]; [discriminate|]. intros _ x [<-|Hx]; auto. Qed.

Lemma pick_Some r K b R : pick r K = Some (b, R) ->
  dot r b = true /\ length K = S (length R) /\ exists K1 K2, K = K1 ++ b :: K2 /\ R = K1 ++ K2.
Proof. revert b R; induction K as [|k K IH]; simpl; [discriminate|]. intros b R.
  destruct (dot r k) eqn:E.
  - intros H; injection H as <- <-. repeat split; auto. exists [], K; auto.
  - destruct (pick r K) as [[b' R']|] eqn:Ep; [|discriminate]. intros H; injection H as <- <-.
    destruct (IH b' R' eq_refl) as (H1 & H2 & K1 & K2 & H3 & H4). repeat split; auto.
    exists (k :: K1), K2. subst; auto. Qed.

(** the state of the kernel computation after the rows M *)
Definition kinv (n : nat) (M K : mat) : Prop :=
  wf n K /\ indep n K /\ (forall x, span n K x <-> in_kernel n M x) /\
  (forall v, length v = n -> (forall x, in_kernel n M x -> dot v x = false) -> span n M v) /\
  has_rank n M (n - length K) /\ length K <= n.

Lemma dot_span_zero n K v : wf n K -> (forall k, In k K -> dot v k = false) -> forall x, span n K x -> dot v x = false.
Proof. intros HK H. apply span_ind; auto using dot_zero_r. intros r x Hr Hx E.
  rewrite dot_vxor_r; [now rewrite H, E|]. rewrite Hx. eapply wf_in; eauto. Qed.

Lemma has_rank_cons_in n M r k : wf n M -> length r = n -> span n M r -> has_rank n M k -> has_rank n (r :: M) k.
Proof. intros HM Hr Hs Hk. eapply has_rank_span; [|exact Hk]. intros v. rewrite span_cons_iff by auto. split; [|tauto].
  intros [|[Hl H']]; auto. rewrite <- (vxor_cancel_l n r v) by auto. apply span_vxor; auto. Qed.

Lemma has_rank_cons_out n M r k : wf n M -> length r = n -> ~ span n M r -> has_rank n M k -> has_rank n (r :: M) (S k).
Proof. intros HM Hr Hs (B & (HB & HI & HS) & <-). exists (r :: B). split; [split; [|split]|]; simpl; auto.
  - constructor; auto. - apply indep_cons; auto. split; auto. rewrite HS; auto.
  - intros w. rewrite !span_cons_iff, !HS by auto. reflexivity. Qed.

Lemma has_rank_perm n A B k : wf n A -> wf n B -> (forall r, In r A <-> In r B) -> has_rank n A k -> has_rank n B k.
Proof. intros HA HB H Hk. eapply has_rank_span; [|exact Hk]. intros v; apply span_perm; auto. intros; symmetry; auto. Qed.

Lemma has_rank_snoc_in n M r k : wf n M -> length r = n -> span n M r -> has_rank n M k -> has_rank n (M ++ [r]) k.
Proof. intros HM Hr Hs Hk. apply (has_rank_perm n (r :: M)).
  - constructor; auto. - apply wf_app; split; auto; constructor; auto.
  - intros; rewrite in_app_iff; simpl; tauto. - apply has_rank_cons_in; auto. Qed.

Lemma has_rank_snoc_out n M r k : wf n M -> length r = n -> ~ span n M r -> has_rank n M k -> has_rank n (M ++ [r]) (S k).
Proof. intros HM Hr Hs Hk. apply (has_rank_perm n (r :: M)).
  - constructor; auto. - apply wf_app; split; auto; constructor; auto.
  - intros; rewrite in_app_iff; simpl; tauto. - apply has_rank_cons_out; auto. Qed.

Lemma in_kernel_snoc n M r x : in_kernel n (M ++ [r]) x <-> in_kernel n M x /\ dot r x = false.
Proof. unfold in_kernel. split.
  - intros [Hl H]. split; [split; auto|]; intros; apply H; rewrite in_app_iff; simpl; auto.
  - intros [[Hl H] E]. split; auto. intros a Ha. apply in_app_iff in Ha as [|[<-|[]]]; auto. Qed.

Lemma kinv_init n : kinv n [] (identity n).
Proof. unfold kinv. rewrite identity_length, Nat.sub_diag. repeat split; auto using identity_wf, identity_indep.
  - eapply span_length; eauto using identity_wf.
  - intros r [].
  - intros [H _]. now apply identity_span.
  - intros v Hv H. replace v with (vzero n); [apply span_zero|]. symmetry. apply dot_all_zero; auto.
    intros x Hx. apply H. split; auto. intros r [].
  - exists []. repeat split; auto using indep_nil. constructor. Qed.

Lemma kinv_step n M K r : wf n M -> length r = n -> kinv n M K -> kinv n (M ++ [r]) (kstep K r).
Proof. intros HM Hr (HK & HI & Hker & Hdual & Hrk & Hle). unfold kstep.
  assert (HMr : wf n (M ++ [r])) by (apply wf_app; split; auto; constructor; auto).
  destruct (pick r K) as [[b R]|] eqn:Ep.
  - destruct (pick_Some _ _ _ _ Ep) as (Hb & HL & K1 & K2 & -> & ->).
    assert (HwK := HK). apply wf_app in HwK as [HK1 HK2]. apply wf_cons in HK2 as [Hbl HK2].
    set (R := K1 ++ K2). assert (HR : wf n R) by (apply wf_app; auto).
    assert (HIb : indep n (b :: R)).
    { assert (P : indep n ((b :: K2) ++ K1)) by (apply (indep_app_comm_in n K1); auto; constructor; auto).
      simpl in P. apply indep_cons in P; [|apply wf_app; auto|auto]. destruct P as [P1 P2].
      apply indep_cons; auto. split; [apply (indep_app_comm_in n K2); auto|].
      intros P. apply P2. eapply span_perm; [| |  |exact P]; [apply wf_app; auto | auto | ].
      intros; unfold R; rewrite !in_app_iff; tauto. }
    set (R' := map (fun k => if dot r k then vxor k b else k) R).
    assert (HR' : wf n R').
    { unfold R'. apply Forall_map. eapply Forall_impl; [|exact HR]. simpl. intros k Hk. destruct (dot r k); auto.
      apply vxor_length'; auto. }
    assert (LR' : length R' = length R) by (unfold R'; apply map_length).
    assert (HperpR' : forall k, In k R' -> dot r k = false).
    { intros k Hk. unfold R' in Hk. apply in_map_iff in Hk as (k0 & <- & Hk0).
      destruct (dot r k0) eqn:E; auto. rewrite dot_vxor_r, E, Hb; auto.
      rewrite Hbl. exact (wf_in n R _ HR Hk0). }
    assert (HKspan : forall x, span n (K1 ++ b :: K2) x <-> span n (b :: R) x).
    { intros x. apply span_perm; auto; [constructor; auto|]. unfold R. intros; simpl; rewrite !in_app_iff; simpl; tauto. }
    assert (HR'K : forall k, In k R' -> span n (b :: R) k).
    { intros k Hk. unfold R' in Hk. apply in_map_iff in Hk as (k0 & <- & Hk0).
      assert (span n (b :: R) k0) by (apply span_in; [constructor; auto | now right]).
      assert (span n (b :: R) b) by (apply span_in; [constructor; auto | now left]).
      destruct (dot r k0); auto. apply span_vxor; auto. constructor; auto. }
    assert (Hker' : forall x, span n R' x <-> in_kernel n (M ++ [r]) x).
    { intros x. rewrite in_kernel_snoc. split.
      - intros Hx. split.
        + apply Hker, HKspan. eapply span_incl; [| | |exact Hx]; auto. constructor; auto.
        + eapply dot_span_zero; [exact HR'| |exact Hx]; auto.
      - intros [Hx Hrx]. apply Hker, HKspan in Hx.
        assert (Hgen : forall x, span n R x -> span n R' x \/ (length x = n /\ span n R' (vxor x b))).
        { apply span_ind; auto; [left; apply span_zero|]. intros k y Hk Hy HP.
          assert (Hkl : length k = n) by exact (wf_in n R _ HR Hk).
          assert (HPk : span n R' (if dot r k then vxor k b else k)).
          { apply span_in; auto. unfold R'. apply in_map_iff. exists k; auto. }
          assert (Lky : length (vxor k y) = n) by (apply vxor_length'; auto).
          destruct (dot r k) eqn:Ek; destruct HP as [HP|[_ HP]].
          - right. split; auto. replace (vxor (vxor k y) b) with (vxor (vxor k b) y); [apply span_vxor; auto|].
            rewrite <- !vxor_assoc. f_equal. apply vxor_comm.
          - left. replace (vxor k y) with (vxor (vxor k b) (vxor y b)); [apply span_vxor; auto|].
            rewrite vxor_swap4, (vxor_self' n b) by auto. now apply vxor_zero_r.
          - left. apply span_vxor; auto.
          - right. split; auto. rewrite <- vxor_assoc. apply span_vxor; auto. }
        assert (Hx2 : span n R' x \/ (length x = n /\ span n R' (vxor x b))).
        { apply span_cons_iff in Hx; auto. destruct Hx as [Hx|[Hxl Hx]]; [apply Hgen; auto|].
          apply Hgen in Hx as [Hx|[_ Hx]].
          - right. split; auto. rewrite vxor_comm; auto.
          - left. rewrite (vxor_comm b x), <- vxor_assoc, (vxor_self' n b), vxor_zero_r in Hx; auto. }
        destruct Hx2 as [|[Hxl Hx2]]; auto. exfalso.
        assert (dot r (vxor x b) = false) by (eapply dot_span_zero; [exact HR'| |exact Hx2]; auto).
        rewrite dot_vxor_r, Hrx, Hb in H; [discriminate|lia]. }
    assert (Hnr : ~ span n M r).
    { intros Hs. assert (in_kernel n M b).
      { apply Hker. apply span_in; auto. apply in_app_iff; simpl; auto. }
      destruct H as [_ H]. assert (E : dot b r = false).
      { eapply (dot_span_zero n M b); eauto. intros k Hk. rewrite dot_comm; auto. }
      rewrite dot_comm in E; congruence. }
    rewrite app_length in Hrk, Hle, HL. simpl in Hrk, Hle, HL.
    assert (length R = length K1 + length K2) by (unfold R; apply app_length).
    split; [auto|]. split; [apply indep_add_pivot; auto|]. split; [auto|].
    split; [|split].
    + intros v Hv Hd. 
      set (v' := if dot v b then vxor v r else v).
      assert (Hv' : length v' = n) by (unfold v'; destruct (dot v b); auto; apply vxor_length'; auto).
      assert (Hvb : dot v' b = false).
      { unfold v'. destruct (dot v b) eqn:E; auto. rewrite dot_vxor_l by lia. now rewrite E, Hb. }
      assert (HvR' : forall k, In k R' -> dot v' k = false).
      { intros k Hk. assert (in_kernel n (M ++ [r]) k) by (apply Hker', span_in; auto).
        unfold v'. destruct (dot v b); auto. rewrite dot_vxor_l by lia. rewrite Hd by auto.
        rewrite HperpR' by auto. auto. }
      assert (HvR : forall k, In k R -> dot v' k = false).
      { intros k Hk. assert (In (if dot r k then vxor k b else k) R') by (unfold R'; apply in_map_iff; exists k; auto).
        apply HvR' in H0. destruct (dot r k); auto. rewrite dot_vxor_r, Hvb, xorb_false_r in H0; auto.
        rewrite Hbl. exact (wf_in n R _ HR Hk). }
      assert (span n M v').
      { apply Hdual; auto. intros x Hx. apply Hker in Hx. eapply dot_span_zero; [exact HK| |exact Hx].
        intros k Hk. apply in_app_iff in Hk. simpl in Hk. destruct Hk as [Hk|[<-|Hk]]; auto; apply HvR; unfold R; apply in_app_iff; auto. }
      assert (H1 : span n (M ++ [r]) v') by (apply span_app_l; auto; constructor; auto).
      unfold v' in H1. destruct (dot v b); auto.
      replace v with (vxor (vxor v r) r).
      * apply span_vxor; auto. apply span_in; auto. apply in_app_iff; simpl; auto.
      * rewrite <- vxor_assoc, (vxor_self' n r), vxor_zero_r; auto.
    + replace (n - length R') with (S (n - (length K1 + S (length K2)))) by lia.
      apply has_rank_snoc_out; auto.
    + lia.
  - assert (Hp := pick_None _ _ Ep).
    assert (Hr0 : forall x, in_kernel n M x -> dot r x = false).
    { intros x Hx. apply Hker in Hx. exact (dot_span_zero n K r HK Hp x Hx). }
    assert (Hs : span n M r) by (apply Hdual; auto).
    split; auto. split; auto. split; [|split; [|split]].
    + intros x. rewrite in_kernel_snoc, Hker. split; [|tauto]. intros Hx; split; auto.
    + intros v Hv Hd. apply span_app_l; [auto|constructor; auto|]. apply Hdual; auto.
      intros x Hx; apply Hd, in_kernel_snoc; auto.
    + apply has_rank_snoc_in; auto.
    + auto. Qed.

Lemma kernel_inv n M : wf n M -> kinv n M (kernel n M).
Proof. intros HM. unfold kernel.
  assert (G : forall M2 M1 K, wf n M1 -> wf n M2 -> kinv n M1 K -> kinv n (M1 ++ M2) (fold_left kstep M2 K)).
  { induction M2 as [|r M2 IH]; intros M1 K H1 H2 HK; simpl.
    - now rewrite app_nil_r.
    - apply wf_cons in H2 as [Hr H2]. replace (M1 ++ r :: M2) with ((M1 ++ [r]) ++ M2) by now rewrite <- app_assoc.
      apply IH; auto. + apply wf_app; split; auto; constructor; auto. + apply kinv_step; auto. }
  apply (G M [] (identity n)); auto using kinv_init. constructor. Qed.

Theorem rk_correct n M : wf n M -> has_rank n M (rk n M).
Proof. intros H; apply (kernel_inv n M H). Qed.

Lemma rk_unique n M r : wf n M -> has_rank n M r -> r = rk n M.
Proof. intros H Hr. eapply has_rank_unique; eauto using rk_correct. Qed.

Theorem kernel_wf n M : wf n M -> wf n (kernel n M).
Proof. intros H; apply (kernel_inv n M H). Qed.

Theorem kernel_indep n M : wf n M -> indep n (kernel n M).
Proof. intros H; apply (kernel_inv n M H). Qed.

Theorem kernel_span n M x : wf n M -> span n (kernel n M) x <-> in_kernel n M x.
Proof. intros H; apply (kernel_inv n M H). Qed.

Theorem rank_nullity n M : wf n M -> rk n M + length (kernel n M) = n.
Proof. intros H. unfold rk. destruct (kernel_inv n M H) as (_ & _ & _ & _ & _ & HL). lia. Qed.

(** double orthogonal complement *)
Theorem span_orth n M v : wf n M -> length v = n ->
  (span n M v <-> forall x, in_kernel n M x -> dot v x = false).
Proof. intros HM Hv. split.
  - intros Hs x [Hx H]. rewrite dot_comm. apply (dot_span_zero n M x HM); auto. intros k Hk; rewrite dot_comm; auto.
  - apply (kernel_inv n M HM); auto. Qed.

Theorem span_kernel_dec n M v : wf n M -> length v = n ->
  (span n M v <-> forallb (fun k => negb (dot v k)) (kernel n M) = true).
Proof. intros HM Hv. rewrite span_orth by auto. rewrite forallb_forall. split.
  - intros H k Hk. rewrite H; auto. apply kernel_span; auto. apply span_in; auto using kernel_wf.
  - intros H x Hx. apply kernel_span in Hx; auto. eapply dot_span_zero; [apply kernel_wf; eauto| |exact Hx].
    intros k Hk. specialize (H k Hk). destruct (dot v k); auto; discriminate. Qed.

Definition in_spanb (n : nat) (M : mat) (v : vec) : bool :=
  forallb (fun k => negb (dot v k)) (kernel n M).

Lemma in_spanb_spec n M v : wf n M -> length v = n -> (in_spanb n M v = true <-> span n M v).
Proof. intros; symmetry; now apply span_kernel_dec. Qed.

Lemma in_kernel_mulMV n M x : length x = n -> (in_kernel n M x <-> mulMV M x = vzero (length M)).
Proof. intros Hx. unfold in_kernel, mulMV. split.
  - intros [_ H]. induction M as [|r M IH]; simpl; auto. rewrite H by now left. rewrite vzero_S. f_equal.
    apply IH. intros; apply H; now right.
  - intros H. split; auto. revert H; induction M as [|r M IH]; simpl; [intros _ r []|].
    rewrite vzero_S. intros H s [<-|Hs]; injection H; intros; auto. Qed.

Lemma mulMV_length M x : length (mulMV M x) = length M.
Proof. apply map_length. Qed.

Lemma mulMV_vxor M n x y : length x = n -> length y = n -> mulMV M (vxor x y) = vxor (mulMV M x) (mulMV M y).
Proof. intros Hx Hy. unfold mulMV. induction M as [|r M IH]; simpl; auto. rewrite IH, dot_vxor_r by lia. auto. Qed.

Lemma mulMV_zero M n : mulMV M (vzero n) = vzero (length M).
Proof. unfold mulMV. induction M as [|r M IH]; simpl; auto. now rewrite IH, dot_zero_r. Qed.

(** ** transposition *)
Lemma col_length M j : length (col M j) = length M.
Proof. apply map_length. Qed.

Lemma transpose_length n M : length (transpose n M) = n.
Proof. unfold transpose; now rewrite map_length, seq_length. Qed.

Lemma transpose_wf n M : wf (length M) (transpose n M).
Proof. unfold transpose. apply Forall_map, Forall_forall. intros; apply col_length. Qed.

Lemma nth_transpose n M j : j < n -> nth j (transpose n M) [] = col M j.
Proof. intros Hj. unfold transpose. rewrite nth_indep with (d' := col M 0) by (rewrite map_length, seq_length; auto).
  rewrite map_nth, seq_nth by auto. reflexivity. Qed.

Lemma nth_col M i j : i < length M -> nth i (col M j) false = nth j (nth i M []) false.
Proof. intros Hi. unfold col. rewrite nth_indep with (d' := (fun r => nth j r false) []) by (rewrite map_length; auto).
  now rewrite (map_nth (fun r => nth j r false)). Qed.

Lemma transpose_entry n M i j : i < length M -> j < n -> 
  nth i (nth j (transpose n M) []) false = nth j (nth i M []) false.
Proof. intros. rewrite nth_transpose by auto. now apply nth_col. Qed.

Lemma map_nth_seq {A} (l : list A) d : map (fun i => nth i l d) (seq 0 (length l)) = l.
Proof. induction l as [|a l IH]; simpl; auto. f_equal. rewrite <- seq_shift, map_map. apply IH. Qed.

Lemma transpose_involutive n M : wf n M -> transpose (length M) (transpose n M) = M.
Proof. intros HM. apply nth_ext with (d := []) (d' := []); [now rewrite transpose_length|].
  intros i Hi. rewrite transpose_length in Hi. rewrite nth_transpose by auto.
  assert (length (nth i M []) = n) by (eapply wf_in; eauto; apply nth_In; auto).
  apply (vec_ext n); auto; [now rewrite col_length, transpose_length|].
  intros j Hj. rewrite nth_col by (now rewrite transpose_length). now apply transpose_entry. Qed.

(** M x is the combination of columns selected by x *)
Lemma mulMV_lincomb n M x : wf n M -> length x = n -> mulMV M x = lincomb (length M) x (transpose n M).
Proof. intros HM Hx. apply (vec_ext (length M)); auto using mulMV_length, lincomb_length, transpose_wf.
  intros i Hi. rewrite nth_lincomb; auto using transpose_wf; [|now rewrite transpose_length].
  unfold mulMV. rewrite nth_indep with (d' := (fun r => dot r x) []) by (rewrite map_length; auto).
  rewrite (map_nth (fun r => dot r x)). rewrite dot_comm. f_equal.
  assert (length (nth i M []) = n) by (eapply wf_in; eauto; apply nth_In; auto).
  unfold col, transpose. rewrite map_map. rewrite <- (map_nth_seq (nth i M []) false) at 1. rewrite H. apply map_ext.
  intros j. symmetry. now apply nth_col. Qed.

Lemma lincomb_mulMV n c M : wf n M -> length c = length M -> lincomb n c M = mulMV (transpose n M) c.
Proof. intros HM Hc. rewrite (mulMV_lincomb (length M)); auto using transpose_wf.
  rewrite transpose_length, transpose_involutive; auto. Qed.

Lemma span_mulMV n M v : wf n M -> (span n M v <-> exists c, length c = length M /\ mulMV (transpose n M) c = v).
Proof. intros HM. unfold span. split; intros (c & Hc & E); exists c; split; auto.
  - now rewrite <- lincomb_mulMV. - now rewrite lincomb_mulMV. Qed.

(** column rank <= row rank *)
Lemma colrank_le n M r s : wf n M -> has_rank n M r -> has_rank (length M) (transpose n M) s -> s <= r.
Proof. intros HM (B & (HB & HI & HS) & HL) Hs.
  (* M = C B *)
  assert (HC : exists C, length C = length M /\ wf (length B) C /\ forall i, i < length M -> nth i M [] = lincomb n (nth i C []) B).
  { assert (Hin : forall r, In r M -> span n B r) by (intros; apply HS, span_in; auto).
    clear - Hin. induction M as [|v M IH].
    - exists []. repeat split; [constructor|simpl; intros; lia].
    - destruct IH as (C & H1 & H2 & H3); [intros; apply Hin; now right|].
      destruct (Hin v) as (c & Hc & E); [now left|]. exists (c :: C). simpl. repeat split; auto; [constructor; auto|].
      intros [|i] Hi; auto. apply H3; lia. }
  destruct HC as (C & HCl & HCw & HCe).
  assert (G : length (transpose (length B) C) = length B) by apply transpose_length.
  destruct (has_rank_exists (length M) (transpose (length B) C)) as [t Ht].
  { rewrite <- HCl. apply transpose_wf. }
  assert (t <= length B).
  { rewrite <- G. apply (has_rank_le_rows (length M)); auto. rewrite <- HCl. apply transpose_wf. }
  enough (s <= t) by lia.
  assert (HCt : wf (length M) (transpose (length B) C)) by (rewrite <- HCl; apply transpose_wf).
  apply (has_rank_le (length M) (transpose n M) (transpose (length B) C) s t); auto using transpose_wf.
  - intros v Hv. unfold transpose in Hv. apply in_map_iff in Hv as (j & <- & Hj). apply in_seq in Hj.
    exists (col B j). rewrite col_length, G. split; auto.
    rewrite <- HCl. rewrite <- mulMV_lincomb; auto using col_length.
    apply (vec_ext (length M)); [now rewrite mulMV_length | now rewrite col_length|].
    intros i Hi. rewrite nth_col by auto. rewrite HCe by auto.
    assert (length (nth i C []) = length B) by (eapply wf_in; eauto; apply nth_In; lia).
    rewrite nth_lincomb; auto; [|lia]. unfold mulMV.
    rewrite nth_indep with (d' := (fun r => dot r (col B j)) []) by (rewrite map_length; lia).
    now rewrite (map_nth (fun r => dot r (col B j))). Qed.

Theorem row_rank_col_rank n M r : wf n M -> (has_rank n M r <-> has_rank (length M) (transpose n M) r).
Proof. intros HM.
  destruct (has_rank_exists n M HM) as [a Ha].
  destruct (has_rank_exists (length M) (transpose n M) (transpose_wf n M)) as [b Hb].
  assert (b <= a) by (eapply colrank_le; eauto).
  assert (a <= b).
  { apply (colrank_le (length M) (transpose n M) b a); auto using transpose_wf.
    now rewrite transpose_length, transpose_involutive. }
  assert (a = b) by lia. subst b. split; intros H1.
  - replace r with a; auto. eapply has_rank_unique; eauto.
  - replace r with a; auto. eapply (has_rank_unique (length M)); eauto using transpose_wf. Qed.

Lemma has_rank_le_cols n M r : wf n M -> has_rank n M r -> r <= n.
Proof. intros HM H. apply row_rank_col_rank in H; auto. apply has_rank_le_rows in H; auto using transpose_wf.
  now rewrite transpose_length in H. Qed.

Lemma rk_le n A B : wf n A -> wf n B -> (forall v, In v A -> span n B v) -> rk n A <= rk n B.
Proof. intros HA HB H; exact (has_rank_le n A B _ _ HA HB H (rk_correct n A HA) (rk_correct n B HB)). Qed.

Lemma rk_le_rows n M : wf n M -> rk n M <= length M.
Proof. intros H; exact (has_rank_le_rows n M _ H (rk_correct n M H)). Qed.

Lemma rk_span n A B : wf n A -> wf n B -> (forall v, span n A v <-> span n B v) -> rk n A = rk n B.
Proof. intros HA HB H. apply rk_unique; auto. eapply has_rank_span; [|apply rk_correct; exact HA]. intros; symmetry; auto. Qed.

Lemma rk_snoc n M v : wf n M -> length v = n -> (rk n (M ++ [v]) = rk n M <-> span n M v).
Proof. intros HM Hv. rewrite (span_iff_rank n M v (rk n M)); auto using rk_correct.
  assert (wf n (M ++ [v])) by (apply wf_app; split; auto; constructor; auto).
  split.
  - intros <-. now apply rk_correct.
  - intros Hr. symmetry. now apply rk_unique. Qed.

Lemma rk_snoc_out n M v : wf n M -> length v = n -> ~ span n M v -> rk n (M ++ [v]) = S (rk n M).
Proof. intros HM Hv H. symmetry. apply rk_unique.
  - apply wf_app; split; auto; constructor; auto.
  - apply has_rank_snoc_out; auto using rk_correct. Qed.

(** equal rank + inclusion = equal spans *)
Lemma rk_eq_span n A B : wf n A -> wf n B -> (forall v, In v A -> span n B v) -> rk n A = rk n B ->
  forall v, span n A v <-> span n B v.
Proof. intros HA HB H E. apply (has_rank_eq_span n A B (rk n A)); auto using rk_correct. rewrite E; now apply rk_correct. Qed.

Lemma rk_app_iff n A B : wf n A -> wf n B -> (rk n (A ++ B) = rk n A <-> forall v, In v B -> span n A v).
Proof. intros HA HB. assert (HAB : wf n (A ++ B)) by (apply wf_app; auto). split.
  - intros E v Hv. apply (rk_eq_span n A (A ++ B)); auto.
    + intros; apply span_in; auto. apply in_app_iff; auto.
    + apply span_in; auto. apply in_app_iff; auto.
  - intros H. apply rk_span; auto. intros v; split.
    + apply span_incl; auto. intros r Hr. apply in_app_iff in Hr as [|]; auto. apply span_in; auto.
    + apply span_app_l; auto. Qed.
