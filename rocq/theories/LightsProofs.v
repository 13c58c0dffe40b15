(** * LightsProofs: proofs about the LightsOut model. *)
From Verif Require Export LightsModel.

Definition pre_cons (light : nat) (idx : list nat) : list zexp :=
  map (fun i => Zeq (Zxor (Zv (Switch (nth i idx 0))) (Zv (Helper light i))) (Zv (Helper light (i - 1)))) (seq 1 (length idx - 2))
  ++ [Zeq (Zv (Switch (nth (length idx - 1) idx 0))) (Zv (Helper light (length idx - 2)))].
Definition comp_cons (light : nat) (idx : list nat) (val : bool) : zexp :=
  Zeq (Zxor (Zv (Switch (nth 0 idx 0))) (Zv (Helper light 0))) (Zc val).
Definition hvars (e : nat * list nat) : nat * list zvar := (fst e, map (Helper (fst e)) (seq 0 (length (snd e) - 1))).
Definition svars (n : nat) : list zvar := map Switch (seq 0 n).
Definition addh (es : list zexp) (s : lights_out) : lights_out :=
  set_opt (mkOpt (o_hard (opt s) ++ es) (o_soft (opt s)) (o_stack (opt s))) s.

Lemma addh_nil s : addh [] s = s.
Proof. destruct s as [a b c d [h so st]]. unfold addh, set_opt. cbn. now rewrite app_nil_r. Qed.
Lemma addh_app es fs s : addh fs (addh es s) = addh (es ++ fs) s.
Proof. destruct s as [a b c d [h so st]]. unfold addh, set_opt. cbn. now rewrite app_assoc. Qed.

Lemma mfor_addh {A} (P : lights_out -> Prop) (f : A -> meth unit) g l :
  (forall es s, P s -> P (addh es s)) ->
  (forall a s, In a l -> P s -> f a s = (addh (g a) s, Ret tt)) ->
  forall s, P s -> mfor l f s = (addh (flat_map g l) s, Ret tt).
Proof. intros HP. induction l as [|a l IH]; intros Hf s Hs; cbn [mfor flat_map].
  - now rewrite addh_nil.
  - unfold mbind. rewrite (Hf a s (or_introl eq_refl) Hs). rewrite IH; auto.
    + now rewrite addh_app.
    + intros b s' Hb. apply Hf. now right. Qed.

Lemma lget_some {A} (l : list A) i d : i < length l -> lget l i = Ret (nth i l d).
Proof. intros H. unfold lget. now rewrite (nth_error_nth' l d H). Qed.
Lemma llast_some {A} (l : list A) d : 0 < length l -> llast l = Ret (nth (length l - 1) l d).
Proof. intros H. unfold llast. destruct (rev l) as [|x r] eqn:E.
  - apply (f_equal (@length _)) in E. rewrite rev_length in E. cbn in E. lia.
  - assert (EE : l = rev r ++ [x]) by (rewrite <- (rev_involutive l), E; reflexivity).
    rewrite EE, app_length. cbn. rewrite app_nth2; [|lia]. replace (length (rev r) + 1 - 1 - length (rev r)) with 0 by lia. reflexivity. Qed.
Lemma svars_length n : length (svars n) = n.
Proof. unfold svars. now rewrite map_length, seq_length. Qed.
Lemma svars_get n i : i < n -> lget (svars n) i = Ret (Switch i).
Proof. intros H. rewrite (lget_some _ _ (Switch 0)); [|now rewrite svars_length]. unfold svars. rewrite map_nth, seq_nth; auto. Qed.
Lemma hseq_get l n i : i < n -> lget (map (Helper l) (seq 0 n)) i = Ret (Helper l i).
Proof. intros H. rewrite (lget_some _ _ (Helper l 0)); [|now rewrite map_length, seq_length]. rewrite map_nth, seq_nth; auto. Qed.
Lemma hseq_last l n : 0 < n -> llast (map (Helper l) (seq 0 n)) = Ret (Helper l (n - 1)).
Proof. intros H. rewrite (llast_some _ (Helper l 0)); [|now rewrite map_length, seq_length]. rewrite map_length, seq_length, map_nth, seq_nth; auto; lia. Qed.

Lemma pre_light n light idx s :
  switch_vars s = Some (svars n) -> dfind light (helper_vars s) = Some (snd (hvars (light, idx))) ->
  2 <= length idx -> (forall i, In i idx -> i < n) ->
  preconstruct_parity_constraint light idx s = (addh (pre_cons light idx) s, Ret tt).
Proof. intros Hs Hh Hl Hi. unfold preconstruct_parity_constraint, mbind, mget, mlift, get_switch_vars.
  unfold dget. rewrite Hh, Hs. cbn [hvars snd fst].
  assert (IN : forall i, i < length idx -> nth i idx 0 < n) by (intros i H; apply Hi, nth_In; auto).
  rewrite (mfor_addh (fun _ => True) _
     (fun i => [Zeq (Zxor (Zv (Switch (nth i idx 0))) (Zv (Helper light i))) (Zv (Helper light (i - 1)))])); auto.
  - rewrite (llast_some idx 0) by lia. rewrite svars_get by (apply IN; lia). rewrite hseq_last by lia.
    unfold mopt. replace (length idx - 1 - 1) with (length idx - 2) by lia.
    change (set_opt (o_add ?e (opt ?x)) ?x) with (addh [e] x). rewrite addh_app. unfold pre_cons.
    rewrite flat_map_concat_map. rewrite <- (map_map (fun i => Zeq (Zxor (Zv (Switch (nth i idx 0))) (Zv (Helper light i))) (Zv (Helper light (i - 1)))) (fun e => [e])).
    rewrite <- (flat_map_concat_map (fun e => [e])).
    assert (FM : forall l : list zexp, flat_map (fun e => [e]) l = l) by (induction l; cbn; congruence). now rewrite FM.
  - intros i s' Hin _. apply in_seq in Hin. rewrite (lget_some idx i 0) by lia. rewrite svars_get by (apply IN; lia).
    rewrite !hseq_get by lia. reflexivity. Qed.

Definition soft_of (n : nat) : list zexp := map (fun v => Znot (Zv v)) (svars n).
Definition pre_state (a b : list (nat * list nat)) : lights_out :=
  mkLO a b (Some (svars (length b))) (map hvars a)
    (mkOpt (flat_map (fun e => pre_cons (fst e) (snd e)) a) (soft_of (length b)) []).

Lemma dfind_app {A} k (d e : list (nat * A)) : dfind k (d ++ e) = match dfind k d with Some x => Some x | None => dfind k e end.
Proof. induction d as [|[k' x] d IH]; cbn; auto. destruct (k =? k'); auto. Qed.
Lemma dfind_In {A} k x (d : list (nat * A)) : dfind k d = Some x -> In (k, x) d.
Proof. induction d as [|[k' y] d IH]; cbn; [discriminate|]. destruct (k =? k') eqn:E; intros H.
  - apply Nat.eqb_eq in E. injection H as ->. subst. now left.
  - right; auto. Qed.
Lemma dfind_some {A} k x (d : list (nat * A)) : NoDup (map fst d) -> In (k, x) d -> dfind k d = Some x.
Proof. induction d as [|[k' y] d IH]; cbn; [easy|]. intros HN [H|H].
  - injection H as -> ->. now rewrite Nat.eqb_refl.
  - inversion HN; subst. destruct (Nat.eqb_spec k k') as [->|]; auto. elim H2. apply (in_map fst) in H. exact H. Qed.
Lemma dfind_none {A} k (d : list (nat * A)) : ~ In k (map fst d) -> dfind k d = None.
Proof. induction d as [|[k' y] d IH]; cbn; auto. intros H. destruct (Nat.eqb_spec k k') as [->|]; [tauto|]. apply IH. tauto. Qed.
Lemma map_fst_hvars a : map fst (map hvars a) = map fst a.
Proof. rewrite map_map. now apply map_ext. Qed.

Lemma pre_loop n l : forall s,
  switch_vars s = Some (svars n) ->
  (forall k, In k (map fst l) -> ~ In k (map fst (helper_vars s))) -> NoDup (map fst l) ->
  (forall j sws, In (j, sws) l -> 2 <= length sws /\ forall i, In i sws -> i < n) ->
  mfor l (fun '(light, switches) =>
      let! self := mget in
      let! _ := (match dfind light (helper_vars self) with
                 | None => fun s => (set_hv (helper_vars s ++ [(light, map (Helper light) (seq 0 (length switches - 1)))]) s, Ret tt)
                 | Some _ => mret tt end) in
      preconstruct_parity_constraint light switches) s
  = (addh (flat_map (fun e => pre_cons (fst e) (snd e)) l) (set_hv (helper_vars s ++ map hvars l) s), Ret tt).
Proof. induction l as [|[k sws] l IH]; intros s Hs Hd Hn Hok.
  - cbn. rewrite app_nil_r. destruct s as [q1 q2 q3 q4 [q5 q6 q7]]; unfold addh, set_opt, set_hv; cbn. now rewrite app_nil_r.
  - cbn [mfor]. unfold mbind at 1 2 3. unfold mget at 1. cbn in Hn. inversion Hn as [|? ? Hk Hn']; subst.
    rewrite (dfind_none k (helper_vars s)) by (apply Hd; now left).
    set (s1 := set_hv _ s). destruct (Hok k sws (or_introl eq_refl)) as [H2 Hi].
    rewrite (pre_light n k sws s1); auto.
    + rewrite IH; auto.
      * f_equal. subst s1. destruct s as [q1 q2 q3 q4 [q5 q6 q7]]; unfold addh, set_opt, set_hv; cbn [l2s s2l switch_vars helper_vars opt o_hard o_soft o_stack flat_map map fst snd]. generalize (pre_cons k sws); intros pc. rewrite <- !app_assoc. reflexivity.
      * intros k' Hk'. subst s1. cbn. rewrite map_app, in_app_iff. cbn. intros [H|[H|[]]]; [apply (Hd k'); auto; now right|]. subst k'. contradiction.
      * intros j sw' H. apply (Hok j). now right.
    + subst s1; cbn. rewrite dfind_app. rewrite (dfind_none k (helper_vars s)) by (apply Hd; now left). cbn. now rewrite Nat.eqb_refl. Qed.

Lemma soft_loop l : forall s, mfor l (fun v => mopt (o_add_soft (Znot (Zv v)))) s =
  (set_opt (mkOpt (o_hard (opt s)) (o_soft (opt s) ++ map (fun v => Znot (Zv v)) l) (o_stack (opt s))) s, Ret tt).
Proof. induction l as [|v l IH]; intros s; cbn.
  - rewrite app_nil_r. destruct s as [q1 q2 q3 q4 [q5 q6 q7]]; reflexivity.
  - unfold mbind, mopt at 1. rewrite IH. cbn. destruct s as [q1 q2 q3 q4 [q5 q6 q7]]; cbn. unfold set_opt; cbn. now rewrite <- app_assoc. Qed.

Definition lights_ok (a b : list (nat * list nat)) : Prop :=
  NoDup (map fst a) /\ (forall j sws, In (j, sws) a -> 2 <= length sws /\ forall i, In i sws -> i < length b).

Lemma preconstruct_ok a b : lights_ok a b -> preconstruct_z3_instance (LightsOut a b) = (pre_state a b, Ret tt).
Proof. intros [Hn Hok]. unfold preconstruct_z3_instance, mbind at 1 2 3. unfold mget at 1. cbn [LightsOut switch_vars l2s s2l].
  rewrite (pre_loop (length b)); auto.
  unfold mbind, get_switch_vars. cbn. rewrite soft_loop. reflexivity. Qed.

(** *** meaning of the chain of constraints *)
Lemma parity_skipn x idx i : i < length idx -> parity x (skipn i idx) = xorb (x (nth i idx 0)) (parity x (skipn (S i) idx)).
Proof. revert i. induction idx as [|a l IH]; cbn; intros i H; [lia|]. destruct i; cbn; auto. apply IH. lia. Qed.

Lemma zeq_iff m a b : zeval m (Zeq a b) = true <-> zeval m a = zeval m b.
Proof. cbn. apply eqb_true_iff. Qed.

Lemma chain_sound m light idx : 2 <= length idx -> zsat m (pre_cons light idx) ->
  forall k, k <= length idx - 2 -> m (Helper light (length idx - 2 - k)) = parity (fun i => m (Switch i)) (skipn (length idx - 1 - k) idx).
Proof. intros Hl Hs. induction k as [|k IH]; intros Hk.
  - rewrite !Nat.sub_0_r. assert (H : zeval m (Zeq (Zv (Switch (nth (length idx - 1) idx 0))) (Zv (Helper light (length idx - 2)))) = true).
    { apply Hs. unfold pre_cons. rewrite in_app_iff. right. now left. }
    apply zeq_iff in H. cbn in H. rewrite <- H. rewrite parity_skipn by lia. rewrite skipn_all2 by lia. cbn. now rewrite xorb_false_r.
  - set (i := length idx - 2 - k). assert (Hi : 1 <= i <= length idx - 2) by (subst i; lia).
    assert (H : zeval m (Zeq (Zxor (Zv (Switch (nth i idx 0))) (Zv (Helper light i))) (Zv (Helper light (i - 1)))) = true).
    { apply Hs. unfold pre_cons. rewrite in_app_iff. left. apply in_map_iff. exists i. split; auto. apply in_seq. lia. }
    apply zeq_iff in H. cbn in H. specialize (IH ltac:(lia)). fold i in IH.
    replace (length idx - 2 - S k) with (i - 1) by (subst i; lia). replace (length idx - 1 - S k) with i by (subst i; lia).
    rewrite <- H, IH. rewrite (parity_skipn _ idx i) by lia. replace (length idx - 1 - k) with (S i) by (subst i; lia). reflexivity. Qed.

Lemma light_sound m light idx val : 2 <= length idx -> zsat m (pre_cons light idx) ->
  (zeval m (comp_cons light idx val) = true <-> parity (fun i => m (Switch i)) idx = val).
Proof. intros Hl Hs. unfold comp_cons. rewrite zeq_iff. cbn.
  pose proof (chain_sound m light idx Hl Hs (length idx - 2) (le_n _)) as H. rewrite Nat.sub_diag in H.
  replace (length idx - 1 - (length idx - 2)) with 1 in H by lia. rewrite H.
  rewrite <- (parity_skipn (fun i => m (Switch i)) idx 0) by lia. reflexivity. Qed.

(** the canonical extension of a switch assignment to the helpers *)
Definition canon (a : list (nat * list nat)) (x : nat -> bool) (v : zvar) : bool :=
  match v with
  | Switch i => x i
  | Helper light i => match dfind light a with Some idx => parity x (skipn (S i) idx) | None => false end
  end.
Lemma canon_chain a x light idx : dfind light a = Some idx -> 2 <= length idx -> zsat (canon a x) (pre_cons light idx).
Proof. intros Hd Hl e He. unfold pre_cons in He. rewrite in_app_iff in He. destruct He as [He|[<-|[]]].
  - apply in_map_iff in He. destruct He as (i & <- & Hi). apply in_seq in Hi. apply zeq_iff. cbn [zeval canon]. rewrite Hd.
    replace (S (i - 1)) with i by lia. symmetry. apply (parity_skipn x idx i). lia.
  - apply zeq_iff. cbn [zeval canon]. rewrite Hd. replace (S (length idx - 2)) with (length idx - 1) by lia. rewrite (parity_skipn x idx (length idx - 1)) by lia.
    rewrite (skipn_all2 idx (n := S (length idx - 1))) by lia. cbn. now rewrite xorb_false_r. Qed.

(** *** solve *)
Lemma complete_light n light idx val s :
  switch_vars s = Some (svars n) -> dfind light (helper_vars s) = Some (snd (hvars (light, idx))) ->
  2 <= length idx -> (forall i, In i idx -> i < n) ->
  complete_parity_constraint light idx val s = (addh [comp_cons light idx val] s, Ret tt).
Proof. intros Hs Hh Hl Hi. unfold complete_parity_constraint, mbind, mget, mlift, get_switch_vars, dget. rewrite Hh, Hs. cbn [hvars snd fst].
  rewrite (lget_some idx 0 0) by lia. rewrite svars_get by (apply Hi, nth_In; lia). rewrite hseq_get by lia. reflexivity. Qed.

Lemma hvars_find a light idx : dfind light a = Some idx -> dfind light (map hvars a) = Some (snd (hvars (light, idx))).
Proof. induction a as [|[k y] a IH]; cbn; [discriminate|]. destruct (light =? k) eqn:E.
  - intros H. injection H as ->. apply Nat.eqb_eq in E. now subst.
  - auto. Qed.

Definition comp_all (a : list (nat * list nat)) (lights : list bool) : list zexp :=
  flat_map (fun '(j, v) => match dfind j a with Some idx => [comp_cons j idx v] | None => [] end) (combine (seq 0 (length lights)) lights).

Lemma complete_loop a b lights s : lights_ok a b -> (forall j, j < length lights -> dfind j a <> None) ->
  l2s s = a -> switch_vars s = Some (svars (length b)) -> helper_vars s = map hvars a ->
  mfor (combine (seq 0 (length lights)) lights) (fun '(light, val) =>
      let! self := mget in
      let! idx := mlift (dget (l2s self) light) in
      complete_parity_constraint light idx val) s = (addh (comp_all a lights) s, Ret tt).
Proof. intros [Hn Hok] Hd H1 H2 H3. unfold comp_all.
  apply (mfor_addh (fun s => l2s s = a /\ switch_vars s = Some (svars (length b)) /\ helper_vars s = map hvars a)); auto.
  intros [j v] s' Hin (E1 & E2 & E3). apply in_combine_l in Hin. apply in_seq in Hin.
  destruct (dfind j a) as [idx|] eqn:E; [|elim (Hd j); auto; lia].
  unfold mbind at 1 2. unfold mget, mlift, dget. rewrite E1, E.
  destruct (Hok j idx (dfind_In _ _ _ E)). apply complete_light with (n := length b); auto. rewrite E3. now apply hvars_find. Qed.

Lemma in_comb lights j v : In (j, v) (combine (seq 0 (length lights)) lights) <-> j < length lights /\ v = nth j lights false.
Proof. assert (G : forall l k, In (j, v) (combine (seq k (length l)) l) <-> k <= j < k + length l /\ v = nth (j - k) l false).
  { induction l as [|b l IH]; intros k; cbn [length seq combine].
    - cbn. split; [easy|lia].
    - cbn [In]. rewrite IH. split.
      + intros [H|[H1 H2]]; [injection H as <- <-; rewrite Nat.sub_diag; split; [lia|reflexivity]|].
        split; [lia|]. replace (j - k) with (S (j - S k)) by lia. exact H2.
      + intros [H1 H2]. destruct (Nat.eq_dec j k) as [->|Hne]; [left; rewrite Nat.sub_diag in H2; cbn in H2; now subst|]. right.
        split; [lia|]. replace (j - k) with (S (j - S k)) in H2 by lia. exact H2. }
  rewrite G. rewrite Nat.sub_0_r. split; intros [H1 H2]; split; auto; lia. Qed.

Lemma sat_iff a b lights m : lights_ok a b -> (forall j, j < length lights -> dfind j a <> None) ->
  zsat m (flat_map (fun e => pre_cons (fst e) (snd e)) a) ->
  (zsat m (comp_all a lights) <-> explains a lights (fun i => m (Switch i))).
Proof. intros [Hn Hok] Hd Hp.
  assert (HP : forall j idx, dfind j a = Some idx -> 2 <= length idx /\ zsat m (pre_cons j idx)).
  { intros j idx H. apply dfind_In in H. split; [apply (Hok j idx H)|]. intros e He. apply Hp. apply in_flat_map. exists (j, idx). auto. }
  split.
  - intros H j Hj. destruct (dfind j a) as [idx|] eqn:E; [|elim (Hd j Hj E)]. exists idx. split; auto.
    destruct (HP j idx E) as [L S']. apply (light_sound m j idx _ L S'). apply H. unfold comp_all. apply in_flat_map.
    exists (j, nth j lights false). split; [apply in_comb; auto|]. rewrite E. now left.
  - intros H e He. unfold comp_all in He. apply in_flat_map in He. destruct He as ([j v] & Hin & He). apply in_comb in Hin. destruct Hin as [Hj ->].
    destruct (H j Hj) as (idx & E & P). rewrite E in He. destruct He as [<-|[]]. destruct (HP j idx E) as [L S']. now apply (light_sound m j idx _ L S'). Qed.

Lemma canon_sat a b x : lights_ok a b -> zsat (canon a x) (flat_map (fun e => pre_cons (fst e) (snd e)) a).
Proof. intros [Hn Hok] e He. apply in_flat_map in He. destruct He as ([j idx] & Hin & He). cbn in He.
  destruct (Hok j idx Hin) as [L _]. revert e He. apply canon_chain; auto. now apply dfind_some. Qed.

Lemma zsat_app m es fs : zsat m (es ++ fs) <-> zsat m es /\ zsat m fs.
Proof. unfold zsat. split; [intros H; split; intros e He; apply H, in_app_iff; auto|]. intros [H1 H2] e He. apply in_app_iff in He. destruct He; auto. Qed.

(** soft constraints count the switches that are not pressed *)
Lemma nsoft_pressed m n : nsoft m (soft_of n) + pressed n (fun i => m (Switch i)) = n.
Proof. unfold nsoft, soft_of, svars, pressed.
  assert (G : forall l, length (filter (zeval m) (map (fun v => Znot (Zv v)) (map Switch l))) + length (filter (fun i => m (Switch i)) l) = length l).
  { induction l as [|i l IH]; cbn; auto. destruct (m (Switch i)); cbn; lia. }
  rewrite G. apply seq_length. Qed.

(** *** validate_model *)
Lemma flip_lights_spec ls : forall lights, (forall l, In l ls -> l < length lights) ->
  exists r, flip_lights ls lights = Ret r /\ length r = length lights /\
    forall j, j < length lights -> nth j r false = xorb (nth j lights false) (Nat.odd (count_occ Nat.eq_dec ls j)).
Proof. induction ls as [|l ls IH]; intros lights H; cbn.
  - exists lights. split; auto. split; auto. intros. now rewrite xorb_false_r.
  - assert (Hl : l < length lights) by (apply H; now left). rewrite (nth_error_nth' lights false Hl).
    destruct (IH (set_nth l (negb (nth l lights false)) lights)) as (r & E & L & N).
    { intros k Hk. rewrite set_nth_length. apply H. now right. }
    exists r. split; auto. rewrite set_nth_length in L. split; auto. intros j Hj. rewrite N by now rewrite set_nth_length.
    rewrite nth_set_nth by auto. destruct (Nat.eq_dec l j) as [->|Hne].
    + rewrite Nat.eqb_refl. rewrite Nat.odd_succ, <- Nat.negb_odd. destruct (nth j lights false), (Nat.odd (count_occ Nat.eq_dec ls j)); reflexivity.
    + destruct (Nat.eqb_spec j l); [congruence|reflexivity]. Qed.

(** total number of toggles of light j by the pressed switches i, i+1, ... *)
Fixpoint toggles (x : nat -> bool) (b : list (nat * list nat)) (j : nat) (is : list nat) : bool :=
  match is with
  | [] => false
  | i :: is' => xorb (x i && match dfind i b with Some ls => Nat.odd (count_occ Nat.eq_dec ls j) | None => false end) (toggles x b j is')
  end.

Lemma validate_loop_spec m b n : forall k lights, k <= n ->
  (forall i, i < n -> truthy m (Switch i) = true -> exists ls, dfind i b = Some ls /\ forall l, In l ls -> l < length lights) ->
  exists r, validate_loop m b (n - k) (map Switch (seq (n - k) k)) lights = Ret r /\ length r = length lights /\
    forall j, j < length lights -> nth j r false = xorb (nth j lights false) (toggles (fun i => truthy m (Switch i)) b j (seq (n - k) k)).
Proof. induction k as [|k IH]; intros lights Hk H.
  - cbn. exists lights. split; auto. split; auto. intros. now rewrite xorb_false_r.
  - set (i := n - S k). cbn [seq map validate_loop toggles]. assert (Ei : S i = n - k) by (subst i; lia). rewrite Ei.
    destruct (truthy m (Switch i)) eqn:T.
    + destruct (H i ltac:(subst i; lia) T) as (ls & El & Hls). unfold dget. rewrite El.
      destruct (flip_lights_spec ls lights Hls) as (r1 & E1 & L1 & N1). rewrite E1.
      destruct (IH r1 ltac:(lia)) as (r & E & L & N).
      { intros i' Hi' T'. destruct (H i' Hi' T') as (ls' & ? & ?). exists ls'. split; auto. rewrite L1. auto. }
      exists r. split; auto. split; [congruence|]. intros j Hj. rewrite N by congruence. rewrite N1 by auto. cbn [andb]. now rewrite xorb_assoc.
    + destruct (IH lights ltac:(lia)) as (r & E & L & N); [exact H|]. exists r. split; auto. split; auto. intros j Hj. rewrite N by auto. cbn [andb]. now rewrite xorb_false_l. Qed.

(** double counting on a consistent graph *)
Lemma parity_sum x sws n : (forall i, In i sws -> i < n) ->
  parity x sws = fold_right (fun i p => xorb (x i && Nat.odd (count_occ Nat.eq_dec sws i)) p) false (seq 0 n).
Proof. induction sws as [|s sws IH]; intros H.
  - cbn [parity fold_right]. assert (G : forall l, fold_right (fun i p => xorb (x i && Nat.odd (count_occ Nat.eq_dec [] i)) p) false l = false).
    { induction l as [|q l IHl]; [reflexivity|]. cbn [fold_right]. rewrite IHl. cbn. now rewrite andb_false_r. } now rewrite G.
  - cbn [parity fold_right]. change (fold_right (fun i b => xorb (x i) b) false sws) with (parity x sws). rewrite IH by (intros; apply H; now right).
    assert (G : forall l, NoDup l -> fold_right (fun i p => xorb (x i && Nat.odd (count_occ Nat.eq_dec (s :: sws) i)) p) false l =
      xorb (if in_dec Nat.eq_dec s l then x s else false) (fold_right (fun i p => xorb (x i && Nat.odd (count_occ Nat.eq_dec sws i)) p) false l)).
    { induction l as [|i l IHl]; intros HN; [reflexivity|]. inversion HN; subst. cbn [fold_right]. rewrite IHl by auto.
      destruct (Nat.eq_dec s i) as [->|Hne].
      - rewrite (count_occ_cons_eq Nat.eq_dec sws eq_refl). destruct (in_dec Nat.eq_dec i l); [contradiction|]. destruct (in_dec Nat.eq_dec i (i :: l)) as [|Hni]; [|elim Hni; now left].
        rewrite Nat.odd_succ, <- Nat.negb_odd. destruct (x i), (Nat.odd (count_occ Nat.eq_dec sws i)), (fold_right (fun i0 p => xorb (x i0 && Nat.odd (count_occ Nat.eq_dec sws i0)) p) false l); reflexivity.
      - rewrite (count_occ_cons_neq Nat.eq_dec sws Hne).
        destruct (in_dec Nat.eq_dec s l), (in_dec Nat.eq_dec s (i :: l)) as [Hi|Hi]; cbn in Hi; try tauto.
        + destruct (x i && Nat.odd (count_occ Nat.eq_dec sws i)), (x s), (fold_right (fun i0 p => xorb (x i0 && Nat.odd (count_occ Nat.eq_dec sws i0)) p) false l); reflexivity.
        + destruct Hi; [congruence|tauto].
        + now rewrite !xorb_false_l. }
    rewrite G by apply seq_NoDup. destruct (in_dec Nat.eq_dec s (seq 0 n)) as [|Hni]; auto. elim Hni. apply in_seq. specialize (H s (or_introl eq_refl)). lia. Qed.

Lemma toggles_parity a b x j sws : graph_ok a b -> dfind j a = Some sws -> toggles x b j (seq 0 (length b)) = parity x sws.
Proof. intros (Na & Nb & Ka & Kb & Oa & Ob & Inc) Hd. pose proof (dfind_In _ _ _ Hd) as Hin.
  rewrite (parity_sum x sws (length b)) by apply (Oa j sws Hin).
  assert (G : forall l, (forall i, In i l -> i < length b) -> toggles x b j l = fold_right (fun i p => xorb (x i && Nat.odd (count_occ Nat.eq_dec sws i)) p) false l).
  { induction l as [|i l IH]; intros H; [reflexivity|]. cbn [toggles fold_right]. rewrite IH by (intros; apply H; now right). f_equal.
    assert (Hi : In i (map fst b)) by (apply Kb, H; now left). apply in_map_iff in Hi. destruct Hi as ([i' ls] & E & Hi). cbn in E. subst i'.
    rewrite (dfind_some i ls b Nb Hi). now rewrite (Inc j sws i ls Hin Hi). }
  apply G. intros i Hi. apply in_seq in Hi. lia. Qed.

Lemma graph_lights_ok a b : graph_ok a b -> lights_ok a b.
Proof. intros (Na & Nb & Ka & Kb & Oa & Ob & Inc). split; auto. Qed.
Lemma graph_dfind a b j : graph_ok a b -> j < length a -> dfind j a <> None.
Proof. intros (Na & Nb & Ka & Kb & Oa & Ob & Inc) Hj E. apply Ka in Hj. apply in_map_iff in Hj. destruct Hj as ([j' s] & E' & H). cbn in E'. subst j'.
  rewrite (dfind_some j s a Na H) in E. discriminate. Qed.
Lemma graph_dfind_b a b i : graph_ok a b -> i < length b -> exists ls, dfind i b = Some ls /\ forall j, In j ls -> j < length a.
Proof. intros (Na & Nb & Ka & Kb & Oa & Ob & Inc) Hi. apply Kb in Hi. apply in_map_iff in Hi. destruct Hi as ([i' ls] & E' & H). cbn in E'. subst i'.
  exists ls. split; [now apply dfind_some|]. now apply (Ob i ls). Qed.

Lemma forallb_negb_nth l : forallb negb l = true <-> forall j, j < length l -> nth j l false = false.
Proof. rewrite forallb_forall. split.
  - intros H j Hj. specialize (H _ (nth_In l false Hj)). now apply negb_true_iff.
  - intros H x Hx. apply (In_nth l x false) in Hx. destruct Hx as (j & Hj & <-). apply negb_true_iff. auto. Qed.

Lemma validate_graph a b m lights s : graph_ok a b -> length lights = length a -> s2l s = b -> switch_vars s = Some (svars (length b)) ->
  exists r, validate_model m lights s = (s, Ret (forallb negb r, r)) /\
    (forallb negb r = true <-> explains a lights (fun i => truthy m (Switch i))).
Proof. intros G HL E1 E2. unfold validate_model, mbind, get_switch_vars, mget, mlift, mret. rewrite E2, E1.
  destruct (validate_loop_spec m b (length b) (length b) lights (le_n _)) as (r & E & L & N).
  { intros i Hi _. rewrite HL. apply (graph_dfind_b a b i G Hi). }
  rewrite Nat.sub_diag in E, N. unfold svars. rewrite E. exists r. split; auto. rewrite forallb_negb_nth. unfold explains. rewrite L. split.
  - intros H j Hj. destruct (dfind j a) as [sws|] eqn:Ed; [|elim (graph_dfind a b j G ltac:(lia) Ed)]. exists sws. split; auto.
    specialize (H j Hj). rewrite N in H by auto. rewrite (toggles_parity a b _ j sws G Ed) in H. symmetry. now apply xorb_eq.
  - intros H j Hj. destruct (H j Hj) as (sws & Ed & P). rewrite N by auto. rewrite (toggles_parity a b _ j sws G Ed), P. apply xorb_nilpotent. Qed.

(** *** solve, complete behaviour on a consistent graph *)
Definition asked (a b : list (nat * list nat)) (lights : list bool) (s : lights_out) : lights_out :=
  addh (comp_all a lights) (set_opt (o_push (opt s)) s).

Lemma solve_unfold sv a b lights s : lights_ok a b -> (forall j, j < length lights -> dfind j a <> None) ->
  l2s s = a -> switch_vars s = Some (svars (length b)) -> helper_vars s = map hvars a ->
  solve sv lights s =
  match sv (opt (asked a b lights s)) with
  | None => (asked a b lights s, Raise AssertionError)
  | Some m => match validate_model m lights (asked a b lights s) with
              | (s', Ret r) => if fst r then (set_opt (o_pop (opt s')) s', Ret (map (fun v => if truthy m v then 1 else 0) (svars (length b)), snd r)) else (s', Raise AssertionError)
              | (s', Raise e) => (s', Raise e) end
  end.
Proof. intros Hok Hd H1 H2 H3. unfold solve, mbind at 1 2. unfold mopt at 1.
  rewrite (complete_loop a b lights (set_opt (o_push (opt s)) s)); auto.
  fold (asked a b lights s). unfold mbind at 1. unfold mget at 1. destruct (sv (opt (asked a b lights s))) as [m|]; [|reflexivity].
  unfold mbind at 1. unfold validate_model, mbind, get_switch_vars, mget, mlift, mret, mopt.
  assert (E2 : switch_vars (asked a b lights s) = Some (svars (length b))) by exact H2. rewrite E2.
  destruct (validate_loop m (s2l (asked a b lights s)) 0 (svars (length b)) lights) as [l|e]; [|reflexivity]. cbn [fst snd].
  destruct (forallb negb l); [|reflexivity]. rewrite E2. reflexivity. Qed.

Lemma pop_asked a b lights : set_opt (o_pop (opt (asked a b lights (pre_state a b)))) (asked a b lights (pre_state a b)) = pre_state a b.
Proof. reflexivity. Qed.

Lemma solve_main sv a b lights : solver_ok sv -> graph_ok a b -> length lights = length a ->
  ((exists x, explains a lights x) ->
   exists y, explains a lights y /\ (forall x, explains a lights x -> pressed (length b) y <= pressed (length b) x) /\
     solve sv lights (pre_state a b) = (pre_state a b, Ret (map (fun i => if y i then 1 else 0) (seq 0 (length b)), repeat false (length a)))) /\
  (~ (exists x, explains a lights x) -> solve sv lights (pre_state a b) = (asked a b lights (pre_state a b), Raise AssertionError)).
Proof. intros Hsv G HL. pose proof (graph_lights_ok a b G) as LO.
  assert (Hd : forall j, j < length lights -> dfind j a <> None) by (intros j Hj; apply (graph_dfind a b j G); lia).
  rewrite (solve_unfold sv a b lights (pre_state a b) LO Hd) by reflexivity.
  specialize (Hsv (opt (asked a b lights (pre_state a b)))).
  set (hard := flat_map (fun e => pre_cons (fst e) (snd e)) a ++ comp_all a lights).
  change (o_hard (opt (asked a b lights (pre_state a b)))) with hard in Hsv.
  change (o_soft (opt (asked a b lights (pre_state a b)))) with (soft_of (length b)) in Hsv.
  assert (ALL : forall x, explains a lights x -> zsat (canon a x) hard).
  { intros x Hx. apply zsat_app. split; [now apply (canon_sat a b)|]. apply (sat_iff a b); auto. now apply (canon_sat a b). }
  assert (BACK : forall m, zsat m hard -> explains a lights (fun i => m (Switch i))).
  { intros m Hm. apply zsat_app in Hm. destruct Hm as [H1 H2]. now apply (sat_iff a b lights m LO Hd H1). }
  destruct (sv (opt (asked a b lights (pre_state a b)))) as [m|].
  - destruct Hsv as [Hm Hbest].
    destruct (validate_graph a b m lights (asked a b lights (pre_state a b)) G HL eq_refl eq_refl) as (r & E & V).
    pose proof (BACK _ Hm) as EX. pose proof (proj2 V EX) as Vt. split; [intros _|intros N; elim N; eauto].
    exists (fun i => truthy m (Switch i)). split; auto. split.
    + intros x Hx. specialize (Hbest _ (ALL x Hx)).
      pose proof (nsoft_pressed (truthy m) (length b)). pose proof (nsoft_pressed (canon a x) (length b)).
      change (pressed (length b) (fun i => canon a x (Switch i))) with (pressed (length b) x) in *. lia.
    + rewrite E. cbn [fst snd]. rewrite Vt, pop_asked. f_equal. f_equal. f_equal; [now unfold svars; rewrite map_map|].
      assert (LR : length r = length a).
      { unfold validate_model, mbind, get_switch_vars, mget, mlift, mret in E.
        destruct (validate_loop_spec m b (length b) (length b) lights (le_n _)) as (r' & E' & L & N).
        { intros i Hi _. rewrite HL. apply (graph_dfind_b a b i G Hi). }
        rewrite Nat.sub_diag in E'. cbn [asked] in E. unfold svars in E. cbn in E. unfold svars in E. rewrite E' in E. injection E as _ <-. lia. }
      rewrite <- LR. clear -Vt. induction r as [|c r IH]; cbn in *; auto. apply andb_true_iff in Vt. destruct Vt as [V1 V2]. apply negb_true_iff in V1. subst. f_equal. auto.
  - split; [intros [x Hx]; elim (Hsv _ (ALL x Hx))|reflexivity]. Qed.

(** *** the exhaustive solver meets the contract *)
Lemma zvar_eqb_spec v w : zvar_eqb v w = true <-> v = w.
Proof. destruct v, w; cbn; try (split; discriminate).
  - rewrite Nat.eqb_eq. split; congruence.
  - rewrite andb_true_iff, !Nat.eqb_eq. split; [intros [-> ->]; auto|intros H; injection H; auto]. Qed.
Lemma assign_map m vs v : In v vs -> assign vs (map m vs) v = m v.
Proof. induction vs as [|w vs IH]; cbn; [easy|]. intros H. destruct (zvar_eqb v w) eqn:E.
  - apply zvar_eqb_spec in E. now subst.
  - destruct H as [->|H]; auto. exfalso. assert (zvar_eqb v v = true) by now apply zvar_eqb_spec. congruence. Qed.
Lemma zeval_ext m m' e : (forall v, In v (zvars e) -> m v = m' v) -> zeval m e = zeval m' e.
Proof. induction e; cbn; intros H; auto; try (rewrite IHe1, IHe2; auto; intros; apply H, in_app_iff; auto). rewrite IHe; auto. Qed.
Lemma best_spec {A} (f : A -> nat) l : match best f l with None => l = [] | Some b => In b l /\ forall a, In a l -> f a <= f b end.
Proof. induction l as [|a l IH]; cbn; auto. destruct (best f l) as [b|].
  - destruct IH as [Hin Hb]. destruct (Nat.leb_spec (f a) (f b)).
    + split; [now right|]. intros x [<-|Hx]; auto.
    + split; [now left|]. intros x [<-|Hx]; auto. specialize (Hb x Hx). lia.
  - subst l. split; [now left|]. intros x [<-|[]]; auto. Qed.
Lemma filter_ext_len {A} (f g : A -> bool) l : (forall a, In a l -> f a = g a) -> length (filter f l) = length (filter g l).
Proof. induction l as [|a l IH]; cbn; intros H; auto. rewrite <- (H a) by now left. destruct (f a); cbn; rewrite IH; auto. Qed.

Theorem search_solver_ok : solver_ok search_solver.
Proof. intros o. unfold search_solver. set (vs := nodup zvar_dec _).
  assert (VS : forall e v, In e (o_hard o ++ o_soft o) -> In v (zvars e) -> In v vs).
  { intros e v He Hv. apply nodup_In. apply in_flat_map. eauto. }
  assert (RES : forall m e, In e (o_hard o ++ o_soft o) -> zeval (assign vs (map m vs)) e = zeval m e).
  { intros m e He. apply zeval_ext. intros v Hv. apply assign_map. eauto. }
  assert (RIN : forall m, zsat m (o_hard o) -> In (map m vs) (filter (fun bits => forallb (zeval (assign vs bits)) (o_hard o)) (all_vecs (length vs)))).
  { intros m Hm. apply filter_In. split; [apply all_vecs_in, map_length|]. apply forallb_forall. intros e He. rewrite RES by (apply in_app_iff; auto). now apply Hm. }
  pose proof (best_spec (fun bits => nsoft (assign vs bits) (o_soft o)) (filter (fun bits => forallb (zeval (assign vs bits)) (o_hard o)) (all_vecs (length vs)))) as B.
  destruct (best _ _) as [bits|].
  - destruct B as [Hin Hb]. apply filter_In in Hin. destruct Hin as [_ Hs]. rewrite forallb_forall in Hs. split; [exact Hs|].
    intros m' Hm'. change (truthy (fun v => Some (assign vs bits v))) with (assign vs bits).
    etransitivity; [|apply (Hb _ (RIN m' Hm'))]. apply Nat.eq_le_incl. unfold nsoft. apply filter_ext_len. intros e He. symmetry. apply RES. apply in_app_iff. auto.
  - intros m' Hm'. specialize (RIN m' Hm'). rewrite B in RIN. destruct RIN. Qed.
