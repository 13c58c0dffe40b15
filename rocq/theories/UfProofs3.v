(** * UfProofs3: the decoding loop of UFDecoder *)
From Verif Require Export UfProofs2 Lin2.

Section G.
Variables (n : nat) (H : mat).
Hypothesis HH : wf n H.
Hypothesis Hne : H <> [].
Hypothesis Hn : 0 < n.
Let m := length H.

Lemma hd_length : length (hd [] H) = n.
Proof. destruct H as [|r M]; [tauto|]. simpl. apply wf_cons in HH. tauto. Qed.

(** ** what holds of every node set the loop can reach *)
Definition reach (A : list nat) : Prop := asc A /\ below n H A /\ forall i, In i A -> i < n -> exists v, edge n H i v.
Lemma reach_grow g r A B : reach A -> grow g (m + n) H r A = Ok B -> reach B /\ incl A B.
Proof. intros (R1 & R2 & R3) E. destruct (grow_ok n H HH Hne Hn g r A B R1 E) as (G1 & G2 & G3). split; auto. split; auto. split.
  - intros x Hx. destruct (G3 x Hx) as [?|(u & Hu)]; auto. exact (edge_lt _ _ Hn _ _ Hu).
  - intros i Hi Hlt. destruct (G3 i Hi) as [?|(u & Hu)]; auto. exists u. apply edge_sym. auto. Qed.
Lemma reach_syndr s : length s = m -> reach (syndrome_nodes n s).
Proof. intros Hs. split; [apply (syndr_asc n H Hn s Hs)|]. split.
  - intros x Hx. apply (syndr_In n H Hn s Hs) in Hx as (c & Hc & -> & _). fold m. unfold m in *. lia.
  - intros i Hi Hlt. apply (syndr_In n H Hn s Hs) in Hi as (c & Hc & -> & _). lia. Qed.
Lemma reach_comp A C : reach A -> In C (getConnectedComps H A) ->
  reach C /\ C <> [] /\ incl C A /\ forall x y, In x C -> In y C -> walk n H C x y.
Proof. intros (R1 & R2 & R3) HC. destruct (comps_ok n H HH Hne Hn A R1) as [K _]. destruct (K C HC) as (K1 & K2 & K3 & K4). split; auto.
  split; auto. split; [intros x Hx; apply R2; auto|intros i Hi; apply R3; auto]. Qed.

(** ** a node set without bits has only invalid components *)
Lemma no_bits_invalid pcm A syn : asc A -> A <> [] -> (forall x, In x A -> n <= x) -> containsInvalidComponents n H pcm A syn = Ok true.
Proof. intros HA HA0 Hb. unfold containsInvalidComponents. destruct (comps_ok n H HH Hne Hn A HA) as [K1 K2].
  destruct A as [|a A'] eqn:EA; [tauto|]. rewrite <- EA in *. destruct (K2 a) as (C & HC & _); [rewrite EA; left; auto|].
  destruct (getConnectedComps H A) as [|C0 l]; [destruct HC|]. cbn [anyInvalid]. destruct (K1 C0 (or_introl eq_refl)) as (_ & _ & I & _).
  unfold getEstimateForComponent. destruct (computeInteriorBitNodes n H C0) as [|b B] eqn:E; [reflexivity|].
  assert (Hx : In b (computeInteriorBitNodes n H C0)) by (rewrite E; left; auto). apply (interior_In n H HH Hne Hn) in Hx as (Hx & Hlt & _).
  specialize (Hb b (I b Hx)). lia. Qed.

Lemma syndr_ge s x : In x (syndrome_nodes n s) -> n <= x.
Proof. intros Hx. apply in_map_iff in Hx as (c & <- & _). lia. Qed.
Lemma syndr_nil s : syndrome_nodes n s = [] <-> ~ In true s.
Proof. unfold syndrome_nodes, onesIdx. split.
  - intros E Ht. destruct (In_nth s true false Ht) as (c & Hc & Ec). apply map_eq_nil in E.
    assert (K : In c (filter (fun i => nth i s false) (seq 0 (length s)))) by (apply filter_In; split; auto; apply in_seq; lia).
    rewrite E in K. destruct K.
  - intros Ht. destruct (filter _ _) as [|c l] eqn:E; auto. exfalso. assert (K : In c (filter (fun i => nth i s false) (seq 0 (length s)))) by (rewrite E; left; auto).
    apply filter_In in K as [K1 K2]. apply in_seq in K1. apply Ht. rewrite <- K2. apply nth_In. lia. Qed.
Lemma syndr_len s : length s = m -> length (syndrome_nodes n s) <= m.
Proof. intros Hs. unfold syndrome_nodes, onesIdx. rewrite map_length. rewrite <- Hs.
  assert (K : forall l : list nat, length (filter (fun i => nth i s false) l) <= length l).
  { induction l as [|x l IHl]; simpl; auto. destruct (nth x s false); simpl; lia. }
  specialize (K (seq 0 (length s))). rewrite seq_length in K. exact K. Qed.

Lemma syndr_range s : length s = m -> existsb (fun v => n + length H <=? v) (syndrome_nodes n s) = false.
Proof. intros Hs. apply not_true_iff_false. rewrite existsb_exists. intros (v & Hv & E). apply Nat.leb_le in E.
  apply (syndr_In n H Hn s Hs) in Hv as (c & Hc & -> & _). lia. Qed.

(** the InvalidComponents policy never gets past its first test *)
Lemma invalid_runs s fuel rnd : length s = m -> In true s -> doDecode fuel InvalidComponents rnd n H H s = Running.
Proof. intros Hs Ht. unfold doDecode. rewrite (syndr_range s Hs). destruct (syndrome_nodes n s) as [|a A] eqn:ES; [apply syndr_nil in ES; tauto|]. rewrite <- ES.
  assert (EL : forall fuel, grow_loop fuel InvalidComponents rnd n H H (syndrome_nodes n s) (syndrome_nodes n s) = Running).
  { clear fuel. assert (Ei : containsInvalidComponents n H H (syndrome_nodes n s) (syndrome_nodes n s) = Ok true).
    { apply no_bits_invalid; [apply (syndr_asc n H Hn s Hs)|rewrite ES; discriminate|apply syndr_ge]. }
    assert (EL : length (syndrome_nodes n s) <? length H + length (hd [] H) = true).
    { apply Nat.ltb_lt. rewrite hd_length. assert (K := syndr_len s Hs). unfold m in K. lia. }
    induction fuel as [|fuel IHf]; cbn [grow_loop]; rewrite Ei, EL; cbn [andb]; auto. }
  now rewrite EL. Qed.
Lemma single_qubit_throws s fuel rnd : length s = m -> In true s ->
  rnd (S fuel) = length (getConnectedComps H (syndrome_nodes n s)) ->
  doDecode (S fuel) SingleQubitRandom rnd n H H s = Threw NullDeref.
Proof. intros Hs Ht Hr. unfold doDecode. rewrite (syndr_range s Hs). destruct (syndrome_nodes n s) as [|a A] eqn:ES; [apply syndr_nil in ES; tauto|]. rewrite <- ES in *.
  cbn [grow_loop]. rewrite no_bits_invalid; [|apply (syndr_asc n H Hn s Hs)|rewrite ES; discriminate|apply syndr_ge].
  replace (_ <? _) with true. 2:{ symmetry. apply Nat.ltb_lt. rewrite hd_length. assert (K := syndr_len s Hs). unfold m in K. lia. }
  cbn [andb grow]. unfold singleQubitRandomFirstGrowth. rewrite Hr.
  now rewrite (proj2 (nth_error_None _ _) (Nat.le_refl _)). Qed.

(** ** decoding a true syndrome *)
Variables (s e : vec).
Hypothesis He : length e = n.
Hypothesis Hse : s = mulMV H e.
Let syndr := syndrome_nodes n s.
Lemma Hs : length s = m.
Proof. rewrite Hse. apply mulMV_length. Qed.

Lemma comp_est A C : reach A -> In C (getConnectedComps H A) -> exists est, getEstimateForComponent n H H C syndr = Ok est /\ asc est /\ Forall (fun i => i < n) est /\
  (computeInteriorBitNodes n H C = [] -> est = []) /\
  (computeInteriorBitNodes n H C <> [] -> forall c, touches n H C c -> dot (nth c H []) (supp_vec n est) = nth c s false).
Proof. intros HA HC. destruct (reach_comp A C HA HC) as ((R1 & R2 & R3) & _ & _ & R4). apply (estimate_ok n H HH Hne Hn s Hs e He Hse C); auto. Qed.

Lemma anyInvalid_ok comps : (forall C, In C comps -> exists est, getEstimateForComponent n H H C syndr = Ok est) -> exists b, anyInvalid n H H comps syndr = Ok b.
Proof. induction comps as [|C l IHl]; intros K; simpl; [eauto|]. destruct (K C (or_introl eq_refl)) as [est ->]. cbn [bind]. destruct est; [eauto|].
  apply IHl. intros D HD; apply K; right; auto. Qed.
Lemma contains_ok A : reach A -> exists b, containsInvalidComponents n H H A syndr = Ok b.
Proof. intros HA. apply anyInvalid_ok. intros C HC. destruct (comp_est A C HA HC) as (est & E & _). eauto. Qed.

(** the loop never throws (except for the end iterator of SingleQubitRandom) *)
Lemma loop_ok g rnd fuel : g <> SingleQubitRandom -> forall A, reach A ->
  grow_loop fuel g rnd n H H syndr A = Running \/ exists B, grow_loop fuel g rnd n H H syndr A = Finished B /\ reach B /\ incl A B /\
    (containsInvalidComponents n H H B syndr = Ok false \/ n + m <= length B).
Proof. intros Hg. induction fuel as [|fuel IHf]; intros A HA; cbn [grow_loop]; destruct (contains_ok A HA) as [b Eb]; rewrite Eb.
  - destruct b; simpl; [|right; exists A; repeat split; auto; try apply HA; intros x; auto].
    destruct (Nat.ltb_spec (length A) (length H + length (hd [] H))) as [|L]; auto. right. exists A. repeat split; auto; try apply HA; try (intros x; auto).
    right. rewrite hd_length in L. unfold m. lia.
  - destruct b; simpl; [|right; exists A; repeat split; auto; try apply HA; intros x; auto].
    destruct (Nat.ltb_spec (length A) (length H + length (hd [] H))) as [L|L].
    2:{ right. exists A. repeat split; auto; try apply HA; try (intros x; auto). right. rewrite hd_length in L. unfold m. lia. }
    rewrite hd_length. fold m. assert (EB : exists B, grow g (m + n) H (rnd (S fuel)) A = Ok B) by (destruct g; simpl; eauto; tauto).
    destruct EB as [B EB]. rewrite EB. destruct (reach_grow g _ A B HA EB) as [HB IB]. destruct (IHf B HB) as [?|(D & E & HD & ID & X)]; auto.
    right. exists D. repeat split; auto; try apply HD. intros x Hx; auto. Qed.

(** AllComponents on a connected graph *)
Lemma loop_connected rnd fuel : connected n H -> forall A, reach A -> A <> [] -> n + m <= fuel + length A ->
  grow_loop fuel AllComponents rnd n H H syndr A <> Running.
Proof. intros Hcon. induction fuel as [|fuel IHf]; intros A HA HA0 Hf; cbn [grow_loop]; destruct (contains_ok A HA) as [b Eb]; rewrite Eb;
    destruct b; simpl; try discriminate; rewrite hd_length; (destruct (Nat.ltb_spec (length A) (length H + n)) as [L|L]; [|discriminate]).
  - exfalso. unfold m in *. lia.
  - fold m. assert (EB : grow AllComponents (m + n) H 0 A = Ok (standardGrowth (m + n) H A)) by auto.
    destruct (reach_grow _ _ A _ HA EB) as [HB IB]. destruct HA as (R1 & R2 & R3).
    destruct (std_progress n H HH Hne Hn A R1 R2) as [Hc|Lt].
    + exfalso. assert (K := closed_all n H Hn A Hcon Hc R1 HA0 R2). lia.
    + apply IHf; auto.
      * destruct A as [|a A']; [tauto|]. intros E. assert (K : In a (standardGrowth (m + n) H (a :: A'))) by (apply IB; left; auto). rewrite E in K. destruct K.
      * fold m in Lt. lia. Qed.

(** ** the result *)
Lemma estimates_ok comps : forall acc, asc acc -> Forall (fun i => i < n) acc ->
  (forall C, In C comps -> exists est, getEstimateForComponent n H H C syndr = Ok est /\ Forall (fun i => i < n) est) ->
  exists res, estimates n H H comps syndr acc = Ok res /\ asc res /\ Forall (fun i => i < n) res /\
    forall i, In i res <-> In i acc \/ exists C est, In C comps /\ getEstimateForComponent n H H C syndr = Ok est /\ In i est.
Proof. induction comps as [|C l IHl]; intros acc Ha Hf K; simpl.
  - exists acc. repeat split; auto. intros [?|(C & est & [] & _)]; auto.
  - destruct (K C (or_introl eq_refl)) as (est & E & F). rewrite E. cbn [bind].
    destruct (IHl (sinserts est acc)) as (res & Er & R1 & R2 & R3); auto using sinserts_asc.
    { rewrite Forall_forall in *. intros i Hi. apply sinserts_In in Hi as [?|?]; auto. }
    { intros D HD; apply K; right; auto. }
    exists res. repeat split; auto.
    + intros Hi. apply R3 in Hi as [Hi|(D & est' & HD & E' & Hi)].
      * apply sinserts_In in Hi as [Hi|Hi]; auto. right. exists C, est. auto.
      * right. exists D, est'. auto.
    + intros [Hi|(D & est' & [<-|HD] & E' & Hi)]; apply R3.
      * left. apply sinserts_In; auto.
      * left. apply sinserts_In. left. congruence.
      * right. exists D, est'. auto. Qed.

Lemma finish_ok A : reach A -> exists res, estimates n H H (getConnectedComps H A) syndr [] = Ok res /\ asc res /\ Forall (fun i => i < n) res /\
  setBits n res = Ok (supp_vec n res) /\
  forall i, In i res <-> exists C est, In C (getConnectedComps H A) /\ getEstimateForComponent n H H C syndr = Ok est /\ In i est.
Proof. intros HA. destruct (estimates_ok (getConnectedComps H A) []) as (res & E & R1 & R2 & R3); try constructor.
  { intros C HC. destruct (comp_est A C HA HC) as (est & E & _ & F & _). eauto. }
  exists res. split; auto. split; auto. split; auto. split.
  - unfold setBits. replace (forallb _ _) with true; auto. symmetry. apply forallb_forall. intros i Hi. apply Nat.ltb_lt.
    rewrite Forall_forall in R2. auto.
  - intros i. rewrite R3. split; auto. intros [[]|]; auto. Qed.

(** decoding never throws *)
Lemma decode_ok g rnd fuel : g <> SingleQubitRandom ->
  doDecode fuel g rnd n H H s = Running \/ exists l, doDecode fuel g rnd n H H s = Finished (l, supp_vec n l) /\ asc l /\ Forall (fun i => i < n) l.
Proof. intros Hg. unfold doDecode. rewrite (syndr_range s Hs). fold syndr.
  assert (K : exists r, (match syndr with [] => Finished [] | _ => grow_loop fuel g rnd n H H syndr syndr end) = r /\ (r = Running \/ exists B, r = Finished B /\ reach B)).
  { destruct syndr as [|a A] eqn:ES.
    - eexists. split; auto. right. exists []. split; auto. split; [constructor|]. split; intros x [].
    - rewrite <- ES. eexists. split; auto. destruct (loop_ok g rnd fuel Hg syndr (reach_syndr s Hs)) as [?|(B & E & HB & _)]; auto.
      right. exists B. auto. }
  destruct K as (r & -> & [-> | (B & -> & HB)]); auto.
  right. destruct (finish_ok B HB) as (res & -> & R1 & R2 & R3 & _). cbn [bind]. rewrite R3. cbn [bind]. exists res. auto. Qed.

Lemma decode_connected rnd fuel : connected n H -> n + m <= fuel ->
  exists l, doDecode fuel AllComponents rnd n H H s = Finished (l, supp_vec n l) /\ asc l /\ Forall (fun i => i < n) l.
Proof. intros Hcon Hf. destruct (decode_ok AllComponents rnd fuel) as [E|K]; [discriminate| |auto]. exfalso. unfold doDecode in E. rewrite (syndr_range s Hs) in E. fold syndr in E.
  assert (K : (match syndr with [] => Finished [] | _ => grow_loop fuel AllComponents rnd n H H syndr syndr end) <> Running).
  { destruct syndr as [|a A] eqn:ES; [discriminate|]. rewrite <- ES. apply loop_connected; auto; [apply (reach_syndr s Hs)|rewrite ES; discriminate|lia]. }
  destruct (match syndr with [] => Finished [] | _ => _ end) as [B|x|]; auto; [|discriminate].
  destruct (let* res := _ in _); discriminate. Qed.

(** a zero syndrome gives the empty estimate *)
Lemma decode_zero g rnd fuel : ~ In true s -> doDecode fuel g rnd n H H s = Finished ([], supp_vec n []).
Proof. intros Hz. unfold doDecode. apply syndr_nil in Hz. rewrite Hz. reflexivity. Qed.

Lemma doDecode_loop g rnd fuel : doDecode fuel g rnd n H H s =
  match grow_loop fuel g rnd n H H (syndrome_nodes n s) (syndrome_nodes n s) with
  | Running => Running | Threw x => Threw x
  | Finished nodes =>
      match (let* res := estimates n H H (getConnectedComps H nodes) (syndrome_nodes n s) [] in let* v := setBits n res in Ok (res, v)) with
      | Ok r => Finished r | Err x => Threw x
      end
  end.
Proof. unfold doDecode. rewrite (syndr_range s Hs). destruct (syndrome_nodes n s) as [|a A]; [|reflexivity]. destruct fuel; reflexivity. Qed.

(** if the final node set is one component that touches every check, the estimate has the given syndrome *)
Lemma decode_single g rnd fuel A C l v : g <> SingleQubitRandom -> grow_loop fuel g rnd n H H syndr syndr = Finished A ->
  getConnectedComps H A = [C] -> computeInteriorBitNodes n H C <> [] -> (forall c, c < m -> touches n H C c) ->
  doDecode fuel g rnd n H H s = Finished (l, v) -> mulMV H v = s.
Proof. intros Hg EA EC Hint Ht. rewrite doDecode_loop. unfold syndr in EA. rewrite EA. assert (HA : reach A).
  { destruct (loop_ok g rnd fuel Hg syndr (reach_syndr s Hs)) as [E1|(B & E1 & HB & IB & _)]; unfold syndr in E1; rewrite EA in E1; [discriminate|]. injection E1 as <-. auto. }
  destruct (finish_ok A HA) as (res & E & R1 & R2 & R3 & R4). unfold syndr in E. rewrite E. cbn [bind]. rewrite R3. cbn [bind]. intros E1. injection E1 as <- <-.
  destruct (comp_est A C HA) as (est & Ee & He1 & He2 & _ & He3); [rewrite EC; left; auto|].
  assert (res = est). { apply asc_ext; auto. intros i. rewrite R4. split.
    - intros (C' & est' & HC' & Ee' & Hi). rewrite EC in HC'. destruct HC' as [<-|[]]. congruence.
    - intros Hi. exists C, est. rewrite EC. split; [left|]; auto. }
  subst res. apply (nth_ext _ _ false false); [rewrite mulMV_length; symmetry; apply Hs|]. intros c Hc. rewrite mulMV_length in Hc.
  rewrite <- (He3 Hint c (Ht c Hc)). unfold mulMV. rewrite (nth_indep _ false ((fun r => dot r (supp_vec n est)) [])) by (rewrite map_length; auto).
  now rewrite (map_nth (fun r => dot r (supp_vec n est))). Qed.
End G.
