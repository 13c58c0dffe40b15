(** * UfProofs: the node sets, components and growth of UFDecoder *)
From Verif Require Export UfModel UtilsProofs.
From Coq Require Export Sorting.Sorted.

(** ** Specification: the Tanner graph *)
(** [u] and [v] are joined: one is bit [i] < n, the other check n + c, and check row c contains bit i *)
Definition edge (n : nat) (H : mat) (u v : nat) : Prop :=
  exists i c, i < n /\ c < length H /\ nth i (nth c H []) false = true /\ ((u = i /\ v = n + c) \/ (u = n + c /\ v = i)).
(** a walk from [u] to [v] that stays inside the set [A] *)
Inductive walk (n : nat) (H : mat) (A : list nat) (u : nat) : nat -> Prop :=
| walk_refl : In u A -> walk n H A u u
| walk_step v w : walk n H A u v -> edge n H v w -> In w A -> walk n H A u w.

(** ** std::set *)
Lemma smem_In x s : smem x s = true <-> In x s.
Proof. unfold smem. rewrite existsb_exists. split.
  - intros (y & Hy & E). apply Nat.eqb_eq in E. now subst.
  - intros Hx. exists x. split; auto. apply Nat.eqb_refl. Qed.
Lemma smem_false x s : smem x s = false <-> ~ In x s.
Proof. rewrite <- smem_In. destruct (smem x s); split; intros; try congruence; try tauto. Qed.
Lemma sinsert_In x s y : In y (sinsert x s) <-> y = x \/ In y s.
Proof. induction s as [|z s IHs]; simpl; [intuition|]. destruct (Nat.ltb_spec x z); simpl; [intuition|].
  destruct (Nat.eqb_spec x z); simpl; [subst; intuition|]. rewrite IHs. intuition. Qed.
Lemma sinserts_In l s y : In y (sinserts l s) <-> In y l \/ In y s.
Proof. revert s; induction l as [|x l IHl]; intros s; simpl; [intuition|]. rewrite IHl, sinsert_In. intuition. Qed.
Definition asc := StronglySorted lt.
Lemma sinsert_asc x s : asc s -> asc (sinsert x s).
Proof. induction s as [|z s IHs]; intros Hs; simpl; [repeat constructor|]. destruct (Nat.ltb_spec x z).
  - constructor; auto. constructor; auto. apply StronglySorted_inv in Hs as [_ Hs]. eapply Forall_impl; [|exact Hs]. simpl; intros; lia.
  - destruct (Nat.eqb_spec x z); auto. apply StronglySorted_inv in Hs as [H1 H2]. constructor; [apply IHs; auto|].
    apply Forall_forall. intros y Hy. apply sinsert_In in Hy as [->|Hy]; [lia|]. rewrite Forall_forall in H2. auto. Qed.
Lemma sinserts_asc l s : asc s -> asc (sinserts l s).
Proof. revert s; induction l as [|x l IHl]; intros s Hs; simpl; auto. apply IHl, sinsert_asc; auto. Qed.
Lemma asc_NoDup s : asc s -> NoDup s.
Proof. induction s as [|z s IHs]; intros Hs; constructor; apply StronglySorted_inv in Hs as [H1 H2]; auto.
  intros Hz. rewrite Forall_forall in H2. specialize (H2 z Hz). lia. Qed.
Lemma asc_ext a b : asc a -> asc b -> (forall x, In x a <-> In x b) -> a = b.
Proof. revert b; induction a as [|x a IHa]; intros [|y b] Ha Hb E; auto.
  - exfalso. apply (E y). left; auto.
  - exfalso. apply (E x). left; auto.
  - apply StronglySorted_inv in Ha as [Ha1 Ha2]. apply StronglySorted_inv in Hb as [Hb1 Hb2]. rewrite Forall_forall in Ha2, Hb2.
    assert (x = y).
    { destruct (proj1 (E x)) as [->|Hx]; [left; auto|auto|]. destruct (proj2 (E y)) as [->|Hy]; [left; auto|auto|].
      specialize (Ha2 _ Hy). specialize (Hb2 _ Hx). lia. }
    subst y. f_equal. apply IHa; auto. intros z. split; intros Hz.
    + destruct (proj1 (E z)) as [->|Hz']; [right; auto| |auto]. specialize (Ha2 _ Hz). lia.
    + destruct (proj2 (E z)) as [->|Hz']; [right; auto| |auto]. specialize (Hb2 _ Hz). lia. Qed.
Lemma sinsert_length x s : asc s -> ~ In x s -> length (sinsert x s) = S (length s).
Proof. intros Hs Hx. apply Nat.le_antisymm.
  - change (S (length s)) with (length (x :: s)). apply NoDup_incl_length; [apply asc_NoDup, sinsert_asc; auto|].
    intros y Hy. apply sinsert_In in Hy as [->|]; [left|right]; auto.
  - change (S (length s)) with (length (x :: s)). apply NoDup_incl_length; [constructor; auto; apply asc_NoDup; auto|].
    intros y [->|Hy]; apply sinsert_In; auto. Qed.

(** ** neighbours *)
Section G.
Variables (n : nat) (H : mat).
Hypothesis HH : wf n H.
Hypothesis Hne : H <> [].
Hypothesis Hn : 0 < n.
Let m := length H.

Lemma nbrs_edge u v : In v (nbrs H u) <-> edge n H u v.
Proof. unfold nbrs. destruct (Nat.lt_ge_cases u n) as [Hu|Hu].
  - destruct (nbrs_bit n H u HH Hne Hu) as (l & E & _ & Hl). rewrite E, Hl. split.
    + intros (c & Hc & -> & E1). exists u, c. auto 6.
    + intros (i & c & Hi & Hc & E1 & [[-> ->]|[-> ->]]); [|lia]. exists c; auto.
  - destruct (Nat.lt_ge_cases (u - n) (length H)) as [Hc|Hc].
    + destruct (nbrs_check n H (u - n) HH Hne Hn Hc) as (l & E & _ & Hl). replace (n + (u - n)) with u in E by lia. rewrite E, Hl. split.
      * intros [Hv E1]. exists v, (u - n). repeat split; auto; try lia.
      * intros (i & c & Hi & Hc' & E1 & [[-> ->]|[-> ->]]); [lia|]. replace (n + c - n) with c in * by lia. auto.
    + rewrite (nbrs_out n H u HH Hne Hn) by lia. split; [intros []|]. intros (i & c & Hi & Hc' & E1 & [[-> ->]|[-> ->]]); lia. Qed.
Lemma nbrs_NoDup u : NoDup (nbrs H u).
Proof. unfold nbrs. destruct (Nat.lt_ge_cases u n) as [Hu|Hu].
  - destruct (nbrs_bit n H u HH Hne Hu) as (l & E & Hd & _). now rewrite E.
  - destruct (Nat.lt_ge_cases (u - n) (length H)) as [Hc|Hc].
    + destruct (nbrs_check n H (u - n) HH Hne Hn Hc) as (l & E & Hd & _). replace (n + (u - n)) with u in E by lia. now rewrite E.
    + rewrite (nbrs_out n H u HH Hne Hn) by lia. constructor. Qed.
Lemma edge_sym u v : edge n H u v -> edge n H v u.
Proof. intros (i & c & Hi & Hc & E & D). exists i, c. tauto. Qed.
Lemma edge_lt u v : edge n H u v -> v < n + m.
Proof. intros (i & c & Hi & Hc & E & [[-> ->]|[-> ->]]); unfold m; lia. Qed.
Lemma walk_in A u v : walk n H A u v -> In u A /\ In v A.
Proof. induction 1; tauto. Qed.
Lemma walk_trans A u v w : walk n H A u v -> walk n H A v w -> walk n H A u w.
Proof. intros Huv. induction 1; auto. eapply walk_step; eauto. Qed.
Lemma walk_sym A u v : walk n H A u v -> walk n H A v u.
Proof. induction 1 as [|v w Hw IHw He Hin]; [constructor; auto|]. eapply walk_trans; [|exact IHw].
  eapply walk_step; [constructor; auto|apply edge_sym; eauto|]. now apply walk_in in Hw. Qed.
Lemma walk_mono A B u v : incl A B -> walk n H A u v -> walk n H B u v.
Proof. intros I. induction 1; [constructor; auto|eapply walk_step; eauto]. Qed.

(** ** getConnectedComps *)
Variable nodes : list nat.
(** state of the inner loop for a component started at [c] *)
Definition cinv (c : nat) (queue ccomp visited : list nat) (visited0 : list nat) : Prop :=
  asc ccomp /\ incl ccomp nodes /\ incl queue nodes /\
  (forall x, In x ccomp -> walk n H ccomp c x) /\
  (forall x, In x queue -> In x ccomp \/ (exists y, In y ccomp /\ edge n H y x) \/ (ccomp = [] /\ x = c)) /\
  (forall x, In x visited -> In x visited0 \/ In x ccomp \/ (exists y, In y ccomp /\ edge n H y x) \/ (ccomp = [] /\ x = c)) /\
  (forall x, In x visited0 -> In x visited) /\
  (ccomp = [] -> In c queue) /\ (In c visited).

Lemma last_in {A} (x : A) l : In (last (x :: l) x) (x :: l).
Proof. assert (E : forall l (a d : A), In (last (a :: l) d) (a :: l)).
  { clear. induction l as [|b l IHl]; intros a d; [left; auto|]. right. apply IHl. }
  apply E. Qed.

Lemma comp_loop_ok fuel : forall c queue ccomp visited visited0 cc vv,
  cinv c queue ccomp visited visited0 -> (ccomp = [] -> queue = [c]) ->
  comp_loop fuel H nodes queue ccomp visited = Some (cc, vv) ->
  asc cc /\ incl cc nodes /\ In c cc /\ (forall x, In x cc -> walk n H cc c x) /\
  (forall x, In x vv -> In x visited0 \/ In x cc \/ exists y, In y cc /\ edge n H y x) /\ incl visited0 vv /\ In c vv.
Proof. induction fuel as [|fuel IHf]; intros c queue ccomp visited visited0 cc vv I Hq E.
  - destruct queue; simpl in E; [|discriminate]. injection E as <- <-. destruct I as (I1 & I2 & I3 & I4 & I5 & I6 & I7 & I8 & I9).
    assert (Hcc : ccomp <> []) by (intros ->; destruct (I8 eq_refl)).
    assert (Hc : In c ccomp). { destruct ccomp as [|z z']; [tauto|]. destruct (walk_in _ _ _ (I4 z (or_introl eq_refl))); auto. }
    split; auto. split; auto. split; auto. split; auto. split; [|auto].
    intros x Hx. destruct (I6 x Hx) as [?|[?|[?|[? ?]]]]; auto. tauto.
  - destruct queue as [|f rest].
    { simpl in E. injection E as <- <-. destruct I as (I1 & I2 & I3 & I4 & I5 & I6 & I7 & I8 & I9).
      assert (Hcc : ccomp <> []) by (intros ->; destruct (I8 eq_refl)).
      assert (Hc : In c ccomp). { destruct ccomp as [|z z']; [tauto|]. destruct (walk_in _ _ _ (I4 z (or_introl eq_refl))); auto. }
      split; auto. split; auto. split; auto. split; auto. split; [|auto].
      intros x Hx. destruct (I6 x Hx) as [?|[?|[?|[? ?]]]]; auto. tauto. }
    cbn [comp_loop] in E. set (curr := last (f :: rest) f) in *. assert (Hcurr : In curr (f :: rest)) by apply last_in.
    destruct I as (I1 & I2 & I3 & I4 & I5 & I6 & I7 & I8 & I9). destruct (smem curr ccomp) eqn:Es.
    + apply smem_In in Es. assert (Hcc : ccomp <> []) by (intros ->; destruct Es).
      eapply IHf; [| |exact E]; [|tauto]. repeat split; auto.
      * intros x Hx; apply I3; right; auto.
      * intros x Hx. apply I5. right; auto.
      * tauto.
    + apply smem_false in Es.
      assert (Hwalk : forall x, In x (sinsert curr ccomp) -> walk n H (sinsert curr ccomp) c x).
      { assert (Hold : forall x, In x ccomp -> walk n H (sinsert curr ccomp) c x).
        { intros x Hx. apply (walk_mono ccomp); auto. intros y Hy. apply sinsert_In; auto. }
        intros x Hx. apply sinsert_In in Hx as [->|Hx]; auto. destruct (I5 curr Hcurr) as [Hc|[(y & Hy & He)|[Hc ->]]]; [tauto| |].
        - eapply walk_step; [apply Hold; eauto|auto|apply sinsert_In; auto].
        - constructor. apply sinsert_In; auto. }
      assert (Hnew : forall x, In x (filter (fun v => negb (smem v (sinsert curr ccomp)) && smem v nodes) (nbrs H curr)) -> In x nodes /\ edge n H curr x).
      { intros x Hx. apply filter_In in Hx as [Hx1 Hx2]. apply andb_true_iff in Hx2 as [_ Hx2]. apply smem_In in Hx2. apply nbrs_edge in Hx1. auto. }
      assert (Hccn : sinsert curr ccomp <> []). { intros E0. assert (In curr (sinsert curr ccomp)) by (apply sinsert_In; auto). rewrite E0 in *. auto. }
      eapply IHf; [| |exact E]; [|tauto]. split; [apply sinsert_asc; auto|].
      split. { intros x Hx. apply sinsert_In in Hx as [->|Hx]; auto. }
      split. { intros x Hx. apply in_app_or in Hx as [Hx|Hx]; [apply I3; right; auto|apply Hnew; auto]. }
      split; [exact Hwalk|].
      split. { intros x Hx. apply in_app_or in Hx as [Hx|Hx].
        - destruct (I5 x (or_intror Hx)) as [Hc|[(y & Hy & He)|[Hc ->]]].
          + left. apply sinsert_In; auto.
          + right; left. exists y. split; auto. apply sinsert_In; auto.
          + specialize (Hq Hc). injection Hq as -> ->. destruct Hx.
        - right; left. exists curr. split; [apply sinsert_In; auto|apply Hnew; auto]. }
      split. { intros x Hx. apply sinserts_In in Hx as [Hx|Hx].
        - right; right; left. exists curr. split; [apply sinsert_In; auto|apply Hnew; auto].
        - destruct (I6 x Hx) as [?|[?|[(y & Hy & He)|[Hc ->]]]]; auto.
          + right; left. apply sinsert_In; auto.
          + right; right; left. exists y. split; auto. apply sinsert_In; auto.
          + right; left. specialize (Hq Hc). injection Hq as -> ->. apply sinsert_In. left. reflexivity. }
      split. { intros x Hx. apply sinserts_In; auto. }
      split; [tauto|]. apply sinserts_In; auto. Qed.

Lemma comp_loop_some fuel : forall queue ccomp visited,
  asc nodes -> asc ccomp -> incl ccomp nodes -> incl queue nodes ->
  length queue + (length nodes - length ccomp) * length nodes <= fuel ->
  exists r, comp_loop fuel H nodes queue ccomp visited = Some r.
Proof. induction fuel as [|fuel IHf]; intros queue ccomp visited Hs Hc I1 I2 Hf.
  - destruct queue as [|f rest]; [simpl; eauto|exfalso; clear - Hf; cbn [length] in Hf; apply Nat.le_0_r in Hf; discriminate].
  - destruct queue as [|f rest]; [simpl; eauto|]. cbn [comp_loop]. set (curr := last (f :: rest) f). assert (Hcurr : In curr (f :: rest)) by apply last_in.
    destruct (smem curr ccomp) eqn:Es.
    + apply IHf; auto; [intros x Hx; apply I2; right; auto|]. simpl in Hf. lia.
    + apply smem_false in Es. assert (Hl := sinsert_length curr ccomp Hc Es).
      assert (Hle : length (sinsert curr ccomp) <= length nodes).
      { apply NoDup_incl_length; [apply asc_NoDup, sinsert_asc; auto|]. intros x Hx. apply sinsert_In in Hx as [->|Hx]; auto. }
      apply IHf; auto.
      * apply sinsert_asc; auto.
      * intros x Hx. apply sinsert_In in Hx as [->|Hx]; auto.
      * intros x Hx. apply in_app_or in Hx as [Hx|Hx]; [apply I2; right; auto|]. apply filter_In in Hx as [_ Hx].
        apply andb_true_iff in Hx as [_ Hx]. now apply smem_In.
      * rewrite app_length. set (new := filter _ _).
        assert (Hnew : length new <= length nodes).
        { apply NoDup_incl_length; [apply NoDup_filter, nbrs_NoDup|]. intros x Hx. apply filter_In in Hx as [_ Hx].
          apply andb_true_iff in Hx as [_ Hx]. now apply smem_In. }
        rewrite Hl. cbn [length] in Hf. rewrite Hl in Hle.
        replace (length nodes - length ccomp) with (S (length nodes - S (length ccomp))) in Hf by lia. cbn [Nat.mul] in Hf. clearbody new. revert Hf. generalize ((length nodes - S (length ccomp)) * length nodes). intros; lia. Qed.

Definition near (l : list (list nat)) (x : nat) : Prop := exists C, In C l /\ (In x C \/ exists y, In y C /\ edge n H y x).
Lemma comps_from_ok fuel : forall todo visited l, incl todo nodes ->
  comps_from fuel H nodes todo visited = Some l ->
  (forall C, In C l -> asc C /\ C <> [] /\ incl C nodes /\ exists c, In c C /\ In c todo /\ forall x, In x C -> walk n H C c x) /\
  (forall x, In x todo -> In x visited \/ near l x).
Proof. induction todo as [|c todo IHt]; intros visited l I E; simpl in E.
  - injection E as <-. split; [intros C []|intros x []].
  - assert (It : incl todo nodes) by (intros x Hx; apply I; right; auto). destruct (smem c visited) eqn:Ec.
    + apply smem_In in Ec. destruct (IHt _ _ It E) as [H1 H2]. split.
      * intros C HC. destruct (H1 C HC) as (? & ? & ? & c0 & ? & ? & ?). repeat split; auto. exists c0. repeat split; auto. right; auto.
      * intros x [<-|Hx]; auto.
    + destruct (comp_loop fuel H nodes [c] [] (sinsert c visited)) as [[cc vv]|] eqn:El; [|discriminate].
      destruct (comps_from fuel H nodes todo vv) as [l'|] eqn:Er; [|discriminate]. injection E as <-.
      destruct (comp_loop_ok fuel c [c] [] (sinsert c visited) visited cc vv) as (K1 & K2 & K3 & K4 & K5 & K6 & K7); auto.
      { assert (Hcn : In c nodes) by (apply I; left; auto).
        split; [constructor|]. split; [intros x []|]. split; [intros x [<-|[]]; auto|]. split; [intros x []|].
        split; [intros x [<-|[]]; auto|]. split; [intros x Hx; apply sinsert_In in Hx as [->|Hx]; auto 6|].
        split; [intros x Hx; apply sinsert_In; auto|]. split; [left; auto|apply sinsert_In; auto]. }
      destruct (IHt _ _ It Er) as [H1 H2]. split.
      * intros C [<-|HC].
        -- split; auto. split; [intros ->; destruct K3|]. split; auto. exists c. split; auto. split; [left|]; auto.
        -- destruct (H1 C HC) as (? & ? & ? & c0 & ? & ? & ?). repeat split; auto. exists c0. repeat split; auto. right; auto.
      * intros x [<-|Hx]. { right. exists cc. split; [left|]; auto. }
        destruct (H2 x Hx) as [Hv|(C & HC & D)].
        -- destruct (K5 x Hv) as [?|[?|?]]; auto; right; exists cc; split; try (left; auto; fail); auto.
        -- right. exists C. split; [right|]; auto. Qed.

Lemma comps_from_some fuel : forall todo visited, asc nodes -> incl todo nodes -> 1 + length nodes * length nodes <= fuel ->
  exists l, comps_from fuel H nodes todo visited = Some l.
Proof. induction todo as [|c todo IHt]; intros visited Hs I Hf; simpl; [eauto|].
  assert (It : incl todo nodes) by (intros x Hx; apply I; right; auto). destruct (smem c visited); auto.
  destruct (comp_loop_some fuel [c] [] (sinsert c visited)) as [[cc vv] E]; auto.
  - constructor.
  - intros x [].
  - intros x [<-|[]]; apply I; left; auto.
  - simpl. lia.
  - rewrite E. destruct (IHt vv Hs It Hf) as [l ->]. eauto. Qed.

Lemma comps_some : asc nodes -> comps_from (comp_fuel nodes) H nodes nodes [] = Some (getConnectedComps H nodes).
Proof. intros Hs. unfold getConnectedComps. destruct (comps_from_some (comp_fuel nodes) nodes [] Hs) as [l E]; [intros x; auto| |now rewrite E].
  unfold comp_fuel. rewrite Nat.mul_succ_r. lia. Qed.

Lemma comps_ok : asc nodes ->
  (forall C, In C (getConnectedComps H nodes) -> asc C /\ C <> [] /\ incl C nodes /\ forall x y, In x C -> In y C -> walk n H C x y) /\
  (forall x, In x nodes -> near (getConnectedComps H nodes) x).
Proof. intros Hs. destruct (comps_from_ok _ _ _ _ (fun x Hx => Hx) (comps_some Hs)) as [H1 H2]. split.
  - intros C HC. destruct (H1 C HC) as (K1 & K2 & K3 & c & Kc & _ & K4). repeat split; auto.
    intros x y Hx Hy. eapply walk_trans; [apply walk_sym|]; auto.
  - intros x Hx. destruct (H2 x Hx) as [[]|]; auto. Qed.
End G.
