(** * UfhProofs4: peeling *)
From Verif Require Export UfhProofs3.

Section U.
Variables (n : nat) (H : mat).
Hypothesis HH : wf n H.
Hypothesis Hne : H <> [].
Hypothesis Hn : 0 < n.
Let m := length H.
Let N := n + m.
(** which vertices are marked: fixed while peeling *)
Variable mk : nat -> bool.
Variable fl : list nat.
Definition del (f : forest) (v : nat) : Prop := t_deleted (nd f v) = true.
Definition MK (f : forest) : Prop := length f = N /\ forall v, t_marked (nd f v) = mk v.

Lemma updDel_ok f v : MK f -> v < N -> MK (upd f v setDeleted) /\ forall w, del (upd f v setDeleted) w <-> del f w \/ w = v.
Proof. intros [L M] Hv. assert (En := nd_upd f v setDeleted). rewrite L in En. specialize (fun w => En w Hv). split.
  - split; [now rewrite upd_length|]. intros w. rewrite En. destruct (Nat.eqb_spec w v) as [->|]; auto. cbn. auto.
  - intros w. unfold del. rewrite En. destruct (Nat.eqb_spec w v) as [->|D]; cbn; [|split; [auto|intros [?|?]; [auto|tauto]]]. split; auto. Qed.
Lemma deleteNbr_ok f u : MK f -> u < N -> MK (deleteNbr f u) /\ forall w, del (deleteNbr f u) w <-> del f w \/ (w = u /\ mk u = true).
Proof. intros M Hu. unfold deleteNbr. destruct M as [L M]. rewrite M. destruct (t_deleted (nd f u)) eqn:Ed, (mk u) eqn:Em; cbn [negb andb].
  2,4: split; [split; auto|]; intros w; split; [auto|intros [?|[_ ?]]; [auto|discriminate]].
  - split; [split; auto|]. intros w. split; auto. intros [?|[-> _]]; auto.
  - destruct (updDel_ok f u (conj L M) Hu) as [M' D']. split; auto. intros w. rewrite D'. split; intros [?|?]; auto; tauto. Qed.
Lemma deleteNbrs_ok l : forall f, MK f -> (forall u, In u l -> u < N) -> MK (fold_left deleteNbr l f) /\ forall w, del (fold_left deleteNbr l f) w <-> del f w \/ (In w l /\ mk w = true).
Proof. induction l as [|u l IHl]; intros f M Hl; cbn [fold_left]; [split; auto; intros w; split; [auto|intros [?|[[] _]]; auto]|].
  destruct (deleteNbr_ok f u M (Hl u (or_introl eq_refl))) as [M1 D1]. destruct (IHl _ M1 (fun x Hx => Hl x (or_intror Hx))) as [M2 D2]. split; auto.
  intros w. rewrite D2, D1. split.
  - intros [[?|[-> ?]]|[? ?]]; auto; right; (split; [|auto]); [left|right]; auto.
  - intros [?|[[->|?] ?]]; auto. Qed.

Lemma peelChecks_ok l : forall f syn, MK f -> (forall c, In c l -> n <= c < N) -> forall st, fold_left (peelCheck H) l (f, syn) = st ->
  MK (fst st) /\
  (forall x, del (fst st) x <-> del f x \/ exists c, In c l /\ mk c = true /\ ~ del f c /\ (x = c \/ (edge n H c x /\ mk x = true))) /\
  (forall x, In x (snd st) <-> In x syn /\ ~ (In x l /\ mk x = true /\ ~ del f x)).
Proof. induction l as [|c l IHl]; intros f syn M Hl st E; cbn [fold_left] in E.
  - subst st. cbn [fst snd]. split; auto. split; intros x; split; auto; [intros [?|(c & [] & _)]; auto|intros K; split; [auto|intros [[] _]]|tauto].
  - destruct (peelCheck H (f, syn) c) as [f1 syn1] eqn:Ep. assert (Hc := Hl c (or_introl eq_refl)). destruct M as [L M].
    assert (St : MK f1 /\ (forall x, del f1 x <-> del f x \/ (mk c = true /\ ~ del f c /\ (x = c \/ (edge n H c x /\ mk x = true)))) /\
       (forall x, In x syn1 <-> In x syn /\ ~ (x = c /\ mk c = true /\ ~ del f c))).
    { unfold peelCheck in Ep. rewrite M in Ep. destruct (mk c && negb (t_deleted (nd f c))) eqn:Eb.
      - apply andb_true_iff in Eb as [Em Ed]. apply negb_true_iff in Ed. assert (Nd : ~ del f c) by (unfold del; congruence). injection Ep as <- <-.
        destruct (deleteNbrs_ok (nbrs H c) f (conj L M)) as [M1 D1]. { intros u Hu. apply (nbrs_e n H HH Hne Hn) in Hu. apply (edge_ltN n H Hn) in Hu. tauto. }
        destruct (updDel_ok _ c M1) as [M2 D2]; [lia|]. split; auto. split.
        + intros x. rewrite D2, D1. rewrite (nbrs_e n H HH Hne Hn). tauto.
        + intros x. rewrite filter_In. rewrite negb_true_iff, Nat.eqb_neq. tauto.
      - injection Ep as <- <-. assert (K : ~ (mk c = true /\ ~ del f c)). { unfold del. intros [K0 K]. apply K. rewrite K0 in Eb. destruct (t_deleted (nd f c)); [auto|discriminate]. }
        split; [split; auto|]. split; intros x; tauto. }
    destruct St as (M1 & D1 & S1). destruct (IHl f1 syn1 M1 (fun x Hx => Hl x (or_intror Hx)) st E) as (M2 & D2 & S2). split; auto.
    assert (Dc : forall c', In c' l -> (~ del f1 c' <-> ~ del f c' /\ ~ (c' = c /\ mk c = true /\ ~ del f c))).
    { intros c' Hc'. rewrite D1. assert (Hc1 := Hl c' (or_intror Hc')). assert (Ne : ~ edge n H c c') by (intros (i & k & Hi & Hk & _ & [[? ?]|[? ?]]); lia).
      assert (Dec : del f c \/ ~ del f c) by (unfold del; destruct (t_deleted (nd f c)); [left|right]; auto; discriminate).
      assert (Dec' : del f c' \/ ~ del f c') by (unfold del; destruct (t_deleted (nd f c')); [left|right]; auto; discriminate). tauto. }
    split.
    + intros x. rewrite D2, D1. split.
      * intros [[?|K]|(c' & Hc' & Em & Nd & K)]; auto; right; [exists c; split; [left; auto|tauto]|].
        exists c'. split; [right; auto|]. split; [auto|]. split; [|auto]. apply (Dc c' Hc'); auto.
      * intros [?|(c' & [<-|Hc'] & Em & Nd & K)]; auto. destruct (Nat.eq_dec c' c) as [->|D]; auto.
        right. exists c'. split; [auto|]. split; [auto|]. split; [|auto]. apply (Dc c' Hc'). split; [auto|]. tauto.
    + intros x. rewrite S2, S1. split.
      * intros [[K1 K2] K3]. split; auto. intros [[E1|Hx] [Em Nd]]; [subst x; apply K2; auto|].
        apply K3. split; [auto|]. split; [auto|]. apply (Dc x Hx). split; [auto|]. intros (-> & ? & ?). apply K2; auto.
      * intros [K1 K2]. split; [split; auto|].
        -- intros (-> & ? & ?). apply K2. split; [left|]; auto.
        -- intros (Hx & Em & Nd). apply K2. split; [right; auto|]. split; auto. apply (Dc x Hx); auto. Qed.

Record PI (f : forest) (syn res : list nat) : Prop := mkPI {
  pi_m : MK f;
  pi_n : NoDup res;
  pi_r : forall b, In b res -> b < n /\ del f b;
  pi_u : forall c b b', n <= c -> mk c = true -> In b res -> In b' res -> edge n H b c -> edge n H b' c -> b = b';
  pi_d : forall c, n <= c -> mk c = true -> (del f c <-> exists b, In b res /\ edge n H b c);
  pi_x : forall c x, n <= c -> mk c = true -> del f c -> edge n H c x -> mk x = true -> del f x;
  pi_s : forall c, In c syn <-> In c fl /\ ~ del f c }.

Hypothesis Hfl : forall c, In c fl -> n <= c < N /\ mk c = true.

Lemma edge_kind u v : edge n H u v -> (u < n /\ n <= v < N) \/ (v < n /\ n <= u < N).
Proof. intros (i & k & Hi & Hk & _ & [[-> ->]|[-> ->]]); [left|right]; unfold N, m; lia. Qed.

Lemma peelComp_ok comp : forall f syn res, PI f syn res -> (forall x, In x comp -> mk x = true) -> forall f' syn' res', peelComp n H comp f syn res = (f', syn', res') -> PI f' syn' res'.
Proof. induction comp as [|v comp IHc]; intros f syn res P Hm f' syn' res' E; cbn [peelComp] in E; [injection E as <- <- <-; auto|].
  destruct syn as [|s0 syn0] eqn:Es; [injection E as <- <- <-; auto|]. rewrite <- Es in *.
  destruct ((v <? n) && negb (t_deleted (nd f v))) eqn:Eb; [|apply (IHc f syn res); auto; intros; apply Hm; right; auto].
  apply andb_true_iff in Eb as [Hv Ed]. apply Nat.ltb_lt in Hv. apply negb_true_iff in Ed. assert (Nd : ~ del f v) by (unfold del; congruence).
  destruct (fold_left (peelCheck H) (nbrs H v) (f, syn)) as [f1 syn1] eqn:Ep. destruct P as [M ND Rr U D X S].
  assert (Hl : forall c, In c (nbrs H v) -> n <= c < N) by (intros c Hc; apply (nbrs_e n H HH Hne Hn) in Hc; apply edge_kind in Hc; lia).
  destruct (peelChecks_ok (nbrs H v) f syn M Hl _ Ep) as (M1 & D1 & S1). cbn [fst snd] in *.
  destruct (updDel_ok f1 v M1) as [M2 D2]; [unfold N; lia|]. assert (Mv : mk v = true) by (apply Hm; left; auto).
  (* a marked check next to v is not deleted *)
  assert (Nc : forall c, n <= c -> mk c = true -> edge n H v c -> ~ del f c) by (intros c Hc Mc He K; apply Nd, (X c v); auto; apply edge_sym; auto).
  assert (D3 : forall x, del (upd f1 v setDeleted) x <-> del f x \/ (exists c, edge n H v c /\ mk c = true /\ (x = c \/ (edge n H c x /\ mk x = true))) \/ x = v).
  { intros x. rewrite D2, D1. split.
    - intros [[?|(c & Hc & Mc & _ & K)]|?]; auto. apply (nbrs_e n H HH Hne Hn) in Hc. right; left; eauto.
    - intros [?|[(c & Hc & Mc & K)|?]]; auto. left. right. exists c. assert (Hc' := Hc). apply (nbrs_e n H HH Hne Hn) in Hc. split; auto. split; auto. split; auto. apply Nc; auto. apply Hl in Hc. lia. }
  apply (IHc (upd f1 v setDeleted) syn1 (res ++ [v])); [constructor|intros; apply Hm; right; auto|exact E].
  - auto.
  - apply NoDup_app_j; auto; [constructor; [intros []|constructor]|]. intros x K [<-|[]]. destruct (Rr v K). auto.
  - intros b Hb. apply in_app_iff in Hb as [Hb|[<-|[]]]; [destruct (Rr b Hb)|]; (split; [auto|]); apply D3; auto.
  - intros c b b' Hc Mc Hb Hb' Eb Eb'. apply in_app_iff in Hb as [Hb|[<-|[]]]; apply in_app_iff in Hb' as [Hb'|[<-|[]]]; auto.
    + apply (U c); auto.
    + exfalso. apply (Nc c); auto. apply D; eauto.
    + exfalso. apply (Nc c); auto. apply D; eauto.
  - intros c Hc Mc. rewrite D3. rewrite (D c Hc Mc). split.
    + intros [(b & Hb & He)|[(c' & Hc' & Mc' & [->|[He _]])| ->]].
      * exists b. split; auto. apply in_or_app; auto.
      * exists v. split; auto. apply in_or_app; right; left; auto.
      * exfalso. apply edge_kind in Hc'. apply edge_kind in He. lia.
      * lia.
    + intros (b & Hb & He). apply in_app_iff in Hb as [Hb|[<-|[]]]; [left; eauto|]. right; left. exists c. auto.
  - intros c x Hc Mc K He Mx. apply D3. apply D3 in K as [K|[(c' & Hc' & Mc' & [->|[K _]])| ->]].
    + left. apply (X c); auto.
    + right; left. exists c'. auto.
    + exfalso. apply edge_kind in Hc'. apply edge_kind in K. lia.
    + lia.
  - intros c. rewrite S1, S. assert (Dec : del f c \/ ~ del f c) by (unfold del; destruct (t_deleted (nd f c)); [left|right]; auto; discriminate). split.
    + intros [[K1 K2] K3]. split; auto. rewrite D3. intros [?|[(c' & Hc' & Mc' & [->|[K _]])| ->]]; auto.
      * apply K3. split; [apply (nbrs_e n H HH Hne Hn); auto|auto].
      * destruct (Hfl c K1). apply edge_kind in Hc'. apply edge_kind in K. lia.
      * destruct (Hfl v K1). lia.
    + intros [K1 K2]. rewrite D3 in K2. split; [split; auto|]. intros (Hc & Mc & _). apply (nbrs_e n H HH Hne Hn) in Hc. apply K2. right; left. exists c. auto. Qed.
Lemma peel_ok comps : forall f syn res, PI f syn res -> (forall C x, In C comps -> In x C -> mk x = true) -> forall f' syn' res', peel n H comps f syn res = (f', syn', res') -> PI f' syn' res'.
Proof. induction comps as [|C comps IHc]; intros f syn res P Hm f' syn' res' E; cbn [peel] in E; [injection E as <- <- <-; auto|].
  destruct (peelComp n H C f syn res) as [[f1 syn1] res1] eqn:Ep. apply (IHc f1 syn1 res1) in E; auto.
  - eapply peelComp_ok; eauto. intros x Hx. apply (Hm C); auto. left; auto.
  - intros D x HD Hx. apply (Hm D); auto. right; auto. Qed.
End U.

Section V.
Variables (n : nat) (H : mat).
Hypothesis HH : wf n H.
Hypothesis Hne : H <> [].
Hypothesis Hn : 0 < n.

(** a decoding of a decoder in its initial state *)
Lemma decode_fresh g ch fuel s : perm_ch ch -> g <> SingleQubitRandom -> length s = length H -> n + length H <= fuel ->
  (forall c, nth c s false = true -> exists i, nth i (nth c H []) false = true) ->
  exists f res, doDecoding fuel g ch n H (initForest n (length H)) s = Finished (f, res, supp_vec n res) /\ NoDup res /\ Forall (fun i => i < n) res /\
    forall c b b', nth c s false = true -> In b res -> In b' res -> nth b (nth c H []) false = true -> nth b' (nth c H []) false = true -> b = b'.
Proof. intros PC Hg Ls Hfu Hz. unfold doDecoding. destruct (syndrome_nodes n s) as [|c0 l0] eqn:Es.
  { eexists. exists []. split; [reflexivity|]. split; [constructor|]. split; [constructor|]. intros c b b' _ []. }
  rewrite <- Es. clear Es c0 l0. set (fl := syndrome_nodes n s).
  assert (Hrow : forall c i, nth i (nth c H []) false = true -> c < length H /\ i < n).
  { intros c i E. assert (Hc : c < length H). { destruct (Nat.lt_ge_cases c (length H)); auto. rewrite (nth_overflow H) in E by auto. destruct i; discriminate. }
    split; auto. destruct (Nat.lt_ge_cases i n); auto. rewrite nth_overflow in E; [discriminate|]. unfold wf in HH. rewrite Forall_forall in HH. rewrite (HH (nth c H [])); auto. apply nth_In; auto. }
  assert (Hed : forall c i, nth i (nth c H []) false = true <-> edge n H i (n + c)).
  { intros c i. split.
    - intros E. destruct (Hrow c i E). exists i, c. split; [auto|]. split; [auto|]. split; [auto|]. left; auto.
    - intros (i0 & c0 & Hi & Hc & E & [[E1 E2]|[? ?]]); [|lia]. assert (c = c0) by lia. subst i0 c0. auto. }
  assert (Hfl : forall c, In c fl <-> n <= c /\ nth (c - n) s false = true).
  { intros c. unfold fl. rewrite (syndr_In n H Hn s Ls). split.
    - intros (k & _ & -> & E). replace (n + k - n) with k by lia. split; [lia|auto].
    - intros [K E]. exists (c - n). split; [destruct (Hz _ E) as (i & Ei); apply (Hrow _ _ Ei)|]. split; [lia|auto]. }
  assert (Hfe : forall c, In c fl -> n <= c < n + length H /\ exists u, edge n H c u).
  { intros c Hc. apply Hfl in Hc as [K E]. destruct (Hz _ E) as (i & Ei). destruct (Hrow _ _ Ei). split; [lia|]. exists i. apply edge_sym. replace c with (n + (c - n)) by lia. apply Hed; auto. }
  assert (T := init_TI n H Hn fl (syndr_asc n H Hn s Ls) Hfe).
  destruct (turns_ok n H HH Hne Hn fl g ch PC Hg fuel _ _ _ _ T) as (f & rho & er & E & T').
  { assert (K := nroots_N n H Hn (fun v => v)). lia. }
  fold fl. rewrite E. unfold erasureDecoder.
  destruct (interiors_ok n H Hn rho (ch_E ch er) f (ti_f _ _ _ _ _ _ _ T')) as (f1 & comps & Ei & R1 & K1 & K2).
  { intros r Hr. apply (ti_e _ _ _ _ _ _ _ T'). destruct PC as (_ & _ & PE). apply (Permutation_in _ (Permutation_sym (PE er)) Hr). }
  rewrite Ei. destruct (peel n H comps f1 fl []) as [[f2 syn2] res] eqn:Ep.
  assert (L1 : length f1 = n + length H) by (destruct R1 as [[L _] _], (ti_f _ _ _ _ _ _ _ T') as (L0 & _); congruence).
  assert (Nd1 : forall v, v < n + length H -> t_deleted (nd f1 v) = false).
  { intros v Hv. destruct R1 as [_ R1]. destruct (R1 v) as [<- _]. apply (ti_m _ _ _ _ _ _ _ T'); auto. }
  assert (Nd2 : forall v, ~ del f1 v).
  { intros v K. unfold del in K. destruct (Nat.lt_ge_cases v (n + length H)) as [Hv|Hv]; [rewrite Nd1 in K by auto; discriminate|]. unfold nd in K. rewrite nth_overflow in K by lia. discriminate. }
  assert (Mf : forall c, In c fl -> n <= c < n + length H /\ t_marked (nd f1 c) = true).
  { intros c Hc. destruct (Hfe c Hc) as [Hcn _]. split; auto. destruct (ti_s _ _ _ _ _ _ _ T' c Hc) as [_ [[]|(r & Hr & Dr)]].
    apply (K2 r); auto; [|lia|lia]. destruct PC as (_ & _ & PE). apply (Permutation_in _ (PE er) Hr). }
  assert (P : PI n H (fun v => t_marked (nd f1 v)) fl f2 syn2 res).
  { apply (peel_ok n H HH Hne Hn (fun v => t_marked (nd f1 v)) fl Mf comps f1 fl []); auto.
    - constructor.
      + split; auto.
      + constructor.
      + intros b [].
      + intros c b b' _ _ [].
      + intros c _ _. split; [intros K; destruct (Nd2 _ K)|intros (b & [] & _)].
      + intros c x _ _ K. destruct (Nd2 _ K).
      + intros c. split; [intros K; split; auto|tauto].
    - intros C x HC Hx. apply (K1 C x); auto. }
  assert (Fr : forall i, In i res -> i < n) by (intros i Hi; apply (pi_r _ _ _ _ _ _ _ P); auto).
  exists f2, res. replace (forallb (fun i => i <? n) res) with true. 2:{ symmetry. apply forallb_forall. intros i Hi. apply Nat.ltb_lt; auto. }
  split; auto. split; [apply (pi_n _ _ _ _ _ _ _ P)|]. split; [apply Forall_forall; auto|].
  intros c b b' Ec Hb Hb' E1 E2. assert (Hc : In (n + c) fl) by (apply Hfl; split; [lia|]; replace (n + c - n) with c by lia; auto).
  apply (pi_u _ _ _ _ _ _ _ P (n + c)); auto; [lia|apply Mf; auto|apply Hed; auto|apply Hed; auto]. Qed.
End V.
