(** * EccLogical: the logical operations of the codes *)
From Coq Require Import NArith ZArith Ring.
From Verif Require Export EccTab.
Local Open Scope amp_scope.

Definition lg (L : logicals) (m : matrix) : list (amp * list (gt * nat)) :=
  let '(a, b, c, d) := m in [(a + d, []); (b + c, LX L); (c - b, LZ L ++ LX L); (a - d, LZ L)].
Definition sc (k : amp) (l : list (amp * list (gt * nat))) := map (fun p => (k * fst p, snd p)) l.
Definition sh (k : nat) (l : list (gt * nat)) : list (gt * nat) := map (fun p => (fst p, (snd p + k)%nat)) l.
Definition shL (k : nat) (L : logicals) : logicals := mkL (sh k (LX L)) (sh k (LZ L)).
Definition lgC (nd : nat) (L : logicals) (m : matrix) : list (amp * list (gt * nat)) :=
  [(aone + aone, []); (aone + aone, LZ L)] ++ lg (shL nd L) m ++ map (fun p => (- fst p, snd p ++ LZ L)) (lg (shL nd L) m).
Lemma word_app d l1 l2 f : after (word d (l1 ++ l2)) f == after (word d l2) (after (word d l1) f).
Proof. unfold word. rewrite map_app. fold (word d l1). fold (word d l2). intros x. unfold after. rewrite run_app, run_word. reflexivity. Qed.
Lemma word_place1 nd d a l : (forall p, In p l -> snd p < nd) -> word (place nd d a) l = word d l.
Proof. intros H. unfold word. apply map_ext_in. intros p Hp. unfold place. now rewrite (proj2 (Nat.ltb_lt _ _) (H p Hp)). Qed.
Lemma word_place2 nd d a l : word (place nd d a) (sh nd l) = word a l.
Proof.
  unfold word, sh. rewrite map_map. apply map_ext. intros p. cbn [fst snd]. unfold place. rewrite (proj2 (Nat.ltb_ge _ _)) by lia. now rewrite Nat.add_sub.
Qed.
Lemma combo_cons d p l f x : combo d (p :: l) f x = fst p * after (word d (snd p)) f x + combo d l f x. Proof. reflexivity. Qed.
Lemma combo_app d l1 l2 f x : combo d (l1 ++ l2) f x = combo d l1 f x + combo d l2 f x.
Proof. induction l1 as [|p l1 IHl]; [cbn [app]; transitivity (azero + combo d l2 f x); [ring|reflexivity]|]. cbn [app]. rewrite !combo_cons, IHl. ring. Qed.
Lemma combo_sc d k l f : combo d (sc k l) f == scale k (combo d l f).
Proof. intros x. induction l as [|p l IHl]; [unfold scale; symmetry; apply amul_0_r|]. unfold sc. cbn [map]. fold (sc k l). unfold scale in *. rewrite !combo_cons, IHl. cbn [fst snd]. ring. Qed.
Lemma combo_then d l w0 f : combo d (map (fun p => (- fst p, snd p ++ w0)) l) f == scale (- aone) (after (word d w0) (combo d l f)).
Proof.
  induction l as [|p l IHl]; intros x.
  - cbn [map]. unfold combo, scale. cbn [fold_right]. transitivity (- aone * azero); [symmetry; apply amul_0_r|]. f_equal. symmetry. unfold after. rewrite run_zero; [reflexivity|intros y; reflexivity].
  - cbn [map]. rewrite combo_cons, IHl. cbn [fst snd]. unfold scale. rewrite word_app.
    rewrite (after_ext (word d w0) (combo d (p :: l) f) (plus (scale (fst p) (after (word d (snd p)) f)) (scale aone (combo d l f)))).
    + unfold after at 4. rewrite run_lin. unfold plus, scale. fold (after (word d w0)). unfold after. ring.
    + intros y. rewrite combo_cons. unfold plus, scale. ring.
Qed.
Lemma combo_lg n i L m f : combo (dq n i) (lg L m) f == logical n L m i f.
Proof.
  intros x. destruct m as [[[a b] c] d]. unfold lg, logical. rewrite !combo_cons. unfold combo at 1. cbn [fold_right fst snd]. rewrite word_app. unfold onBlock.
  change (gatesOf (fun j => i + j * n)%nat) with (word (dq n i)). change (after (word (dq n i) []) f x) with (f x). ring.
Qed.
Lemma combo_ext d d' l f : (forall p, In p l -> word d (snd p) = word d' (snd p)) -> combo d l f == combo d' l f.
Proof. induction l as [|p l IHl]; intros H x; [reflexivity|]. rewrite !combo_cons, (H p) by now left. rewrite IHl; [reflexivity|]. intros q Hq. apply H. now right. Qed.
Lemma dq_inj1 n i nd : i < n -> forall j j', j < nd -> j' < nd -> dq n i j = dq n i j' -> j = j'.
Proof. intros Hi j j' _ _ E. exact (proj2 (dq_inj n i i j j' Hi Hi E)). Qed.
Lemma place2_inj n nd b i : i < n -> b < n -> b <> i -> forall j j', j < (nd + nd)%nat -> j' < (nd + nd)%nat -> place nd (dq n b) (dq n i) j = place nd (dq n b) (dq n i) j' -> j = j'.
Proof.
  intros Hi Hb Hn j j' Hj Hj'. unfold place. destruct (Nat.ltb_spec j nd), (Nat.ltb_spec j' nd); intros E; apply dq_inj in E; auto; destruct E; try congruence; lia.
Qed.
Definition lgBd (nd : nat) (L : logicals) : bool := forallb (fun p => snd p <? nd) (LX L) && forallb (fun p => snd p <? nd) (LZ L).
Definition stBd (nd : nat) (stabs : list (list (gt * nat))) : bool := forallb (forallb (fun p => snd p <? nd)) stabs.
Lemma stBd_ok nd stabs l p : stBd nd stabs = true -> In l stabs -> In p l -> snd p < nd.
Proof. unfold stBd. rewrite forallb_forall. intros H Hl Hp. specialize (H l Hl). rewrite forallb_forall in H. now apply Nat.ltb_lt, H. Qed.
Lemma lgBd_ok nd L p : lgBd nd L = true -> In p (LX L) \/ In p (LZ L) -> snd p < nd.
Proof. unfold lgBd. rewrite andb_true_iff, !forallb_forall. intros [H1 H2] [Hp|Hp]; apply Nat.ltb_lt; auto. Qed.
Section Acts.
Variables (e : ecc) (stabs : list stabilizer) (L : logicals).
Notation nd := (e_red e).
Lemma acts_of g m os c k : comboOk nd stabs os c (sc k (lg L m)) = true -> c <> azero -> k <> azero ->
  (forall n ncb i, i < n -> e_map e n ncb (mkFl false true) (IGate g [] [i]) = Ok (mkFl false true, map (ren (dq n i) 0) os)) -> acts e stabs L g m.
Proof.
  intros Hok Hc Hk Hm. exists c, k. split; [exact Hc|]. split; [exact Hk|]. intros n ncb i f Hi Hf. eexists. split; [now apply Hm|]. intros x.
  rewrite (combo_sound nd (dq n i) (dq_inj1 n i nd Hi) 0 f stabs (fun l Hl => Hf i l Hi Hl) os c (sc k (lg L m)) Hok x). rewrite combo_sc. unfold scale. f_equal. apply combo_lg.
Qed.
Definition stabs2 : list (list (gt * nat)) := stabs ++ map (sh nd) stabs.
Lemma actsC_of g m os c k : comboOk (nd + nd) stabs2 os c (sc k (lgC nd L m)) = true -> c <> azero -> k <> azero -> stBd nd stabs = true -> lgBd nd L = true ->
  (forall n ncb b i, i < n -> b < n -> b <> i -> e_map e n ncb (mkFl false true) (IGate g [(b, true)] [i]) = Ok (mkFl false true, map (ren (place nd (dq n b) (dq n i)) 0) os)) -> actsC e stabs L g m.
Proof.
  intros Hok Hc Hk Hbs Hbl Hm. exists c, k. split; [exact Hc|]. split; [exact Hk|]. intros n ncb b i f Hi Hb Hn Hf. eexists. split; [now apply Hm|]. intros x.
  set (rho := place nd (dq n b) (dq n i)).
  assert (Hw : forall l, In l stabs2 -> after (word rho l) f == f).
  { intros l Hl. unfold stabs2 in Hl. apply in_app_iff in Hl. destruct Hl as [Hl|Hl].
    - unfold rho. rewrite word_place1 by (intros p Hp; exact (stBd_ok nd stabs l p Hbs Hl Hp)). exact (Hf b l Hb Hl).
    - apply in_map_iff in Hl. destruct Hl as [l0 [<- Hl]]. unfold rho. rewrite word_place2. exact (Hf i l0 Hi Hl). }
  rewrite (combo_sound (nd + nd) rho (place2_inj n nd b i Hi Hb Hn) 0 f stabs2 Hw os c (sc k (lgC nd L m)) Hok x). rewrite combo_sc. unfold scale. f_equal.
  assert (E1 : word rho (LZ L) = word (dq n b) (LZ L)) by (apply word_place1; intros p Hp; apply (lgBd_ok nd L p Hbl); now right).
  assert (E2 : combo rho (lg (shL nd L) m) f == logical n L m i f).
  { intros y. rewrite <- combo_lg. destruct m as [[[m00 m01] m10] m11]. unfold lg. rewrite !combo_cons. cbn [fst snd shL LX LZ]. unfold sh at 2. unfold sh at 2. rewrite <- map_app. fold (sh nd (LZ L ++ LX L)). unfold rho.
    rewrite !word_place2. reflexivity. }
  unfold lgC, logicalC. cbn [app]. rewrite !combo_cons. cbn [fst snd]. rewrite combo_app, combo_then. unfold scale. rewrite E1. rewrite (after_ext _ _ _ E2), E2. unfold onBlock.
  change (gatesOf (fun j => b + j * n)%nat) with (word (dq n b)). change (after (word rho []) f x) with (f x). ring.
Qed.
(** encoded states stay encoded *)
Definition goodChk : bool :=
  stBd nd stabs && lgBd nd L && ends nd stabs stabs (word (fun j => j) (LX L)) && ends nd stabs stabs (word (fun j => j) (LZ L)) &&
  comboOk nd stabs (word (fun j => j) (LX L ++ LX L)) aone [(aone, [])] && comboOk nd stabs (word (fun j => j) (LZ L ++ LZ L)) aone [(aone, [])] &&
  comboOk nd stabs (word (fun j => j) (LZ L ++ LX L)) aone [(- aone, LX L ++ LZ L)].
Lemma word_other n i i' l l' f : i < n -> i' < n -> i <> i' -> (forall p, In p l -> snd p < nd) ->
  after (word (dq n i') l') f == f -> after (word (dq n i') l') (after (word (dq n i) l) f) == after (word (dq n i) l) f.
Proof.
  intros Hi Hi' Hn Hb Hf x. rewrite <- !(W_shift (dq n i')), <- !(W_shift (dq n i)). rewrite W_comm.
  - apply after_ext. intros y. rewrite W_shift. apply Hf.
  - intros p q Hp Hq. apply in_map_iff in Hp, Hq. destruct Hp as [p0 [<- Hp]], Hq as [q0 [<- Hq]]. cbn [snd]. intros E. apply dq_inj in E; auto. destruct E; congruence.
Qed.
Lemma goodChk_ok : goodChk = true -> goodLogicals stabs L.
Proof.
  unfold goodChk. rewrite !andb_true_iff. intros [[[[[[Hs Hl] H1] H2] H3] H4] H5] n i f Hi Hf.
  assert (Hw : forall l, In l stabs -> after (word (dq n i) l) f == f) by (intros l Hl'; exact (Hf i l Hi Hl')).
  assert (Enc : forall l, (forall p, In p l -> snd p < nd) -> ends nd stabs stabs (word (fun j => j) l) = true -> encoded n stabs (after (word (dq n i) l) f)).
  { intros l Hb He i' l' Hi' Hl'. change (gatesOf (fun j => i' + j * n)%nat) with (word (dq n i')). destruct (Nat.eq_dec i i') as [<-|Hne].
    - pose proof (ends_sound nd (dq n i) (dq_inj1 n i nd Hi) 0 f stabs Hw stabs _ He 0%N [] l' Hl') as G. rewrite ren_word in G. exact G.
    - apply word_other; auto. exact (Hf i' l' Hi' Hl'). }
  assert (Com : forall l1 l2, comboOk nd stabs (word (fun j => j) l1) aone l2 = true -> after (word (dq n i) l1) f == combo (dq n i) l2 f).
  { intros l1 l2 H x. pose proof (combo_sound nd (dq n i) (dq_inj1 n i nd Hi) 0 f stabs Hw _ _ _ H x) as G. rewrite ren_word in G. unfold scale in G. rewrite <- G. symmetry. apply amul_1_l. }
  unfold onBlock. change (gatesOf (fun j => i + j * n)%nat) with (word (dq n i)). split; [|split; [|split; [|split]]].
  - apply Enc; [|exact H1]. intros p Hp. apply (lgBd_ok nd L p Hl). now left.
  - apply Enc; [|exact H2]. intros p Hp. apply (lgBd_ok nd L p Hl). now right.
  - intros x. rewrite <- word_app, (Com _ _ H3 x), combo_cons. unfold combo. cbn [fold_right fst snd]. change (after (word (dq n i) []) f x) with (f x). ring.
  - intros x. rewrite <- word_app, (Com _ _ H4 x), combo_cons. unfold combo. cbn [fold_right fst snd]. change (after (word (dq n i) []) f x) with (f x). ring.
  - intros x. rewrite <- word_app, (Com _ _ H5 x), combo_cons. unfold combo, scale. cbn [fold_right fst snd]. rewrite <- word_app. ring.
Qed.
End Acts.

(** ** The circuits *)
Definition tpl (e : ecc) (g : gt) : list op := match e_map e 1 0 (mkFl false true) (IGate g [] [0]) with Ok (_, c) => c | _ => [] end.
Definition tplC (e : ecc) (g : gt) : list op :=
  match e_map e 2 0 (mkFl false true) (IGate g [(0, true)] [1]) with
  | Ok (_, c) => map (ren (fun q => (q mod 2) * e_red e + q / 2)%nat 0) c
  | _ => []
  end.
Definition a2 : amp := aone + aone.
Definition a4 : amp := a2 * a2.
Ltac one e stabs L g m c k := apply (acts_of e stabs L g m (tpl e g) c k); [vm_compute; reflexivity|discriminate|discriminate|intros n ncb i Hi; reflexivity].
Ltac ctl e stabs L g m c k := apply (actsC_of e stabs L g m (tplC e g) c k); [vm_compute; reflexivity|discriminate|discriminate|reflexivity|reflexivity|intros n ncb b i Hi Hb Hn; reflexivity].
(** -Y: the transversal gates of the codes make it of Y *)
Definition mY : matrix := (azero, aI, - aI, azero).
Definition phase (a : amp) : matrix := (aone, azero, azero, a).
Lemma q3_good : goodLogicals q3stabs q3log. Proof. apply (goodChk_ok q3Shor). vm_compute. reflexivity. Qed.
Lemma s9_good : goodLogicals s9stabs s9log. Proof. apply (goodChk_ok q9Shor). vm_compute. reflexivity. Qed.
Lemma l5_good : goodLogicals l5stabs l5log. Proof. apply (goodChk_ok q5Laflamme). vm_compute. reflexivity. Qed.
Lemma s7_good : goodLogicals s7stabs s7log. Proof. apply (goodChk_ok q7Steane). vm_compute. reflexivity. Qed.
Lemma f9_good : goodLogicals f9stabs f9log. Proof. apply (goodChk_ok q9Surface). vm_compute. reflexivity. Qed.
Lemma q3_X : implements q3Shor q3stabs q3log GX. Proof. one q3Shor q3stabs q3log GX (mat GX) a2 aone. Qed.
Lemma q3_Y : implements q3Shor q3stabs q3log GY. Proof. one q3Shor q3stabs q3log GY (mat GY) (- a2) aone. Qed.
Lemma q3_Z : implements q3Shor q3stabs q3log GZ. Proof. one q3Shor q3stabs q3log GZ (mat GZ) a2 aone. Qed.
Lemma q3_S : acts q3Shor q3stabs q3log GS (phase (- aI)). Proof. one q3Shor q3stabs q3log GS (phase (- aI)) a2 aone. Qed.
Lemma q3_Sdg : acts q3Shor q3stabs q3log GSdg (phase aI). Proof. one q3Shor q3stabs q3log GSdg (phase aI) a2 aone. Qed.
Lemma q3_T : acts q3Shor q3stabs q3log GT (phase (aW * aI)). Proof. one q3Shor q3stabs q3log GT (phase (aW * aI)) a2 aone. Qed.
Lemma q3_Tdg : acts q3Shor q3stabs q3log GTdg (phase (- aW)). Proof. one q3Shor q3stabs q3log GTdg (phase (- aW)) a2 aone. Qed.
Lemma q3_CX : implementsC q3Shor q3stabs q3log GX. Proof. ctl q3Shor q3stabs q3log GX (mat GX) a4 aone. Qed.
Lemma q3_CZ : implementsC q3Shor q3stabs q3log GZ. Proof. ctl q3Shor q3stabs q3log GZ (mat GZ) a4 aone. Qed.
Lemma q3_CY : actsC q3Shor q3stabs q3log GY mY. Proof. ctl q3Shor q3stabs q3log GY mY a4 aone. Qed.
Lemma s9_X : implements q9Shor s9stabs s9log GX. Proof. one q9Shor s9stabs s9log GX (mat GX) a2 aone. Qed.
Lemma s9_Y : implements q9Shor s9stabs s9log GY. Proof. one q9Shor s9stabs s9log GY (mat GY) (- a2) aone. Qed.
Lemma s9_Z : implements q9Shor s9stabs s9log GZ. Proof. one q9Shor s9stabs s9log GZ (mat GZ) a2 aone. Qed.
Lemma s9_CX : implementsC q9Shor s9stabs s9log GX. Proof. ctl q9Shor s9stabs s9log GX (mat GX) aone (Am 128 0 0 0). Qed.
Lemma l5_X : implements q5Laflamme l5stabs l5log GX. Proof. one q5Laflamme l5stabs l5log GX (mat GX) a2 aone. Qed.
Lemma l5_Y : implements q5Laflamme l5stabs l5log GY. Proof. one q5Laflamme l5stabs l5log GY (mat GY) a2 aone. Qed.
Lemma l5_Z : implements q5Laflamme l5stabs l5log GZ. Proof. one q5Laflamme l5stabs l5log GZ (mat GZ) a2 aone. Qed.
Lemma s7_X : implements q7Steane s7stabs s7log GX. Proof. one q7Steane s7stabs s7log GX (mat GX) a2 aone. Qed.
Lemma s7_Y : implements q7Steane s7stabs s7log GY. Proof. one q7Steane s7stabs s7log GY (mat GY) (- a2) aone. Qed.
Lemma s7_Z : implements q7Steane s7stabs s7log GZ. Proof. one q7Steane s7stabs s7log GZ (mat GZ) a2 aone. Qed.
Lemma s7_H : implements q7Steane s7stabs s7log GH. Proof. one q7Steane s7stabs s7log GH (mat GH) aone a4. Qed.
Lemma s7_S : implements q7Steane s7stabs s7log GS. Proof. one q7Steane s7stabs s7log GS (mat GS) a2 aone. Qed.
Lemma s7_Sdg : implements q7Steane s7stabs s7log GSdg. Proof. one q7Steane s7stabs s7log GSdg (mat GSdg) a2 aone. Qed.
Lemma s7_T_ : implements q7Steane s7stabs s7log GT. Proof. one q7Steane s7stabs s7log GT (mat GT) a2 aone. Qed.
Lemma s7_Tdg : implements q7Steane s7stabs s7log GTdg. Proof. one q7Steane s7stabs s7log GTdg (mat GTdg) a2 aone. Qed.
Lemma s7_CX : implementsC q7Steane s7stabs s7log GX. Proof. ctl q7Steane s7stabs s7log GX (mat GX) a4 aone. Qed.
Lemma s7_CZ : implementsC q7Steane s7stabs s7log GZ. Proof. ctl q7Steane s7stabs s7log GZ (mat GZ) a4 aone. Qed.
Lemma s7_CY : actsC q7Steane s7stabs s7log GY mY. Proof. ctl q7Steane s7stabs s7log GY mY a4 aone. Qed.
Lemma f9_X_ : implements q9Surface f9stabs f9log GX. Proof. one q9Surface f9stabs f9log GX (mat GX) a2 aone. Qed.
Lemma f9_Y_ : implements q9Surface f9stabs f9log GY. Proof. one q9Surface f9stabs f9log GY (mat GY) (a2 * aI) aone. Qed.
Lemma f9_Z_ : implements q9Surface f9stabs f9log GZ. Proof. one q9Surface f9stabs f9log GZ (mat GZ) a2 aone. Qed.
