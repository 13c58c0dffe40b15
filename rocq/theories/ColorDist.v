(** * ColorDist: values of an operator at coordinates, shared by the distance proofs of both color-code families. *)
From Verif Require Export HexDist ColorProofs2.

(** in a code with one logical qubit, a logical of odd weight meets every nontrivial logical oddly *)
Lemma odd_meet n h (H : mat) b v : wf n H -> indep n H -> length H = h -> n = 2 * h + 1 ->
  (forall r s, In r H -> In s H -> dot r s = false) ->
  in_kernel n H b -> ~ span n H b -> dot b b = true -> in_kernel n H v -> ~ span n H v -> dot b v = true.
Proof. intros W I L N C KB NB BB KV NV.
  assert (WC : wf n (b :: H)) by (constructor; [apply KB|exact W]).
  assert (IC : indep n (b :: H)) by (apply indep_cons; auto; apply KB).
  assert (LK : length (kernel n H) = S h).
  { pose proof (rank_nullity n H W). rewrite <- (rk_unique n H (length H) W (has_rank_indep _ _ W I)) in H0. lia. }
  assert (S1 : span n (b :: H) v).
  { apply (indep_full_span n (kernel n H) (S h) (b :: H) (kernel_wf n H W)); auto.
    - rewrite <- LK. apply has_rank_indep; [now apply kernel_wf|now apply kernel_indep].
    - cbn. now rewrite L.
    - intros c [<-|Hc]; apply kernel_span; auto. split; [apply (wf_in n H c W Hc)|]. intros r Hr. now apply C.
    - apply kernel_span; auto. }
  apply span_cons_iff in S1; [|exact W|apply KB]. destruct S1 as [S1|S1]; [contradiction|].
  assert (D : dot b (vxor b v) = false).
  { apply (dot_span_zero n H b W); [intros k Hk; rewrite dot_comm; now apply KB|]. apply S1. }
  rewrite dot_vxor_r in D by (destruct KB as [-> _], KV as [-> _]; reflexivity). rewrite BB in D. destruct (dot b v); auto; discriminate. Qed.

Definition vat (data : list coord) (v : vec) (p : coord) : bool :=
  match coords_to_idx data p with Some k => nth k v false | None => false end.
Section Vat.
  Variables (data : list coord) (v : vec).
  Hypothesis ND : NoDup data.
  Hypothesis Lv : length v = length data.
  Lemma vat_in p : vat data v p = true -> In p data.
  Proof. unfold vat. destruct (coords_to_idx data p) as [k|] eqn:E; [|discriminate]. apply cti_spec in E; auto. destruct E as [E1 <-]. intros _. now apply nth_In. Qed.
  Lemma vat_out p : ~ In p data -> vat data v p = false.
  Proof. intros H. destruct (vat data v p) eqn:E; auto. elim H. now apply vat_in. Qed.
  Lemma vat_map : v = map (vat data v) data.
  Proof. apply (vec_ext (length data)); auto; [apply map_length|]. intros i Hi.
    rewrite (nth_indep (map (vat data v) data) false (vat data v (0,0)%Z)) by now rewrite map_length. rewrite (map_nth (vat data v)). unfold vat.
    destruct (coords_to_idx data (nth i data (0,0)%Z)) as [k|] eqn:E.
    - apply cti_spec in E; auto. destruct E as [E1 E2]. f_equal. apply (proj1 (NoDup_nth data (0,0)%Z) ND); auto.
    - apply index_from_none in E. elim E. now apply nth_In. Qed.
  Lemma vat_dot (P : coord -> bool) : dot (map P data) v = Nat.odd (length (filter (fun p => P p && vat data v p) data)).
  Proof. rewrite vat_map at 1. apply dot_map_odd. Qed.
  Lemma vat_count (P : coord -> bool) l : NoDup l -> (forall p, In p data -> P p = true -> In p l) -> (forall p, In p l -> vat data v p = true -> P p = true) ->
    length (filter (fun p => P p && vat data v p) data) = length (filter (vat data v) l).
  Proof. intros NL H1 H2. apply Permutation_length, NoDup_Permutation; [now apply NoDup_filter|now apply NoDup_filter|].
    intros p. rewrite !filter_In, andb_true_iff. split.
    - intros (A & B & C). auto.
    - intros (A & B). split; [now apply vat_in|auto]. Qed.
  Lemma vat_face F : NoDup F -> dot (frow data F) v = Nat.odd (length (filter (vat data v) F)).
  Proof. intros NF. unfold frow. rewrite vat_dot. rewrite (vat_count (fun p => cmem p F) F NF); [reflexivity|intros p _ H; now apply cmem_In|intros p H _; now apply cmem_In]. Qed.
  Lemma vat_weight l : NoDup l -> length (filter (vat data v) l) <= weight v.
  Proof. intros NL. replace (weight v) with (length (filter (vat data v) data)) by (rewrite <- weight_map, <- vat_map; reflexivity). apply NoDup_incl_length; [now apply NoDup_filter|].
    intros p Hp. apply filter_In in Hp. destruct Hp as [_ Hp]. apply filter_In. split; auto. now apply vat_in. Qed.
End Vat.

Definition xorl (l : list bool) : bool := fold_right xorb false l.
Lemma odd_filter {A} (f : A -> bool) l : Nat.odd (length (filter f l)) = xorl (map f l).
Proof. induction l as [|a l IH]; [reflexivity|]. cbn [filter map xorl fold_right]. fold (xorl (map f l)). rewrite <- IH. destruct (f a); cbn [length]; [rewrite Nat.odd_succ, <- Nat.negb_odd|]; now destruct (Nat.odd _). Qed.
Lemma xorl_app a b : xorl (a ++ b) = xorb (xorl a) (xorl b).
Proof. unfold xorl. induction a as [|x a IH]; cbn [app fold_right]; [symmetry; apply xorb_false_l|]. rewrite IH, xorb_assoc. reflexivity. Qed.

Lemma NoDup_flat_map {A B} (g : A -> list B) l : NoDup l -> (forall a, In a l -> NoDup (g a)) -> (forall a b p, In a l -> In b l -> In p (g a) -> In p (g b) -> a = b) -> NoDup (flat_map g l).
Proof. induction l as [|a l IH]; intros NL H1 H2; cbn; [constructor|]. inversion NL; subst. apply NoDup_app_i.
  - apply H1. now left.
  - apply IH; auto; [intros; apply H1; now right|]. intros x y p Hx Hy. apply H2; now right.
  - intros p Hp Hq. apply in_flat_map in Hq. destruct Hq as (b & Hb & Hq). assert (a = b) by (apply (H2 a b p); auto; [now left|now right]). subst. contradiction. Qed.
Lemma filter_flat_len {B} (f : B -> bool) (g : nat -> list B) n : length (filter f (flat_map g (seq 0 n))) = nsum n (fun k => length (filter f (g k))).
Proof. induction n as [|n IH]; [reflexivity|]. rewrite seq_S, flat_map_app, filter_app, app_length, IH. cbn [flat_map nsum plus]. now rewrite app_nil_r. Qed.
Lemma xorl_flat {B} (f : B -> bool) (g : nat -> list B) n : xorl (map f (flat_map g (seq 0 n))) = xsum n (fun k => xorl (map f (g k))).
Proof. induction n as [|n IH]; [reflexivity|]. rewrite seq_S, flat_map_app, map_app, xorl_app, IH. cbn [flat_map xsum plus]. now rewrite app_nil_r. Qed.
