(** * EccEnc2: encoding and decoding by measurement *)
From Coq Require Import NArith ZArith Ring.
From Verif Require Export EccEnc.
Local Open Scope amp_scope.

Section Anc.
Variables (n nd na off : nat) (rest : list op) (Pre Post : list (list (gt * nat))).
Hypothesis Hin : forallb (inT (nd + na)) rest = true.
Hypothesis Hpre : stBd nd Pre = true.
Hypothesis Hpost : stBd nd Post = true.
Hypothesis Hends : ends (nd + na) (roundWords nd na Pre) Post rest = true.
Notation anc := (ancs na (aq n nd)).
Notation rho i := (place nd (dq n i) (aq n nd)).
Notation body i := (map (ren (rho i) off) rest).
Lemma rho_inj i : i < n -> forall j j', j < nd + na -> j' < nd + na -> rho i j = rho i j' -> j = j'.
Proof.
  intros Hi. apply place_inj.
  - intros j j' _ _ E. exact (proj2 (dq_inj n i i j j' Hi Hi E)).
  - intros j j' _ _ E. unfold aq in E. lia.
  - intros j j' Hj _. now apply dq_aq.
Qed.
Lemma body_avoids i i' j' : i < n -> i' < n -> i <> i' -> j' < nd -> forallb (avoids (dq n i' j')) (body i) = true.
Proof.
  intros Hi Hi' Hn Hj. apply forallb_forall. intros o Ho. apply in_map_iff in Ho. destruct Ho as [o' [<- Ho]]. rewrite forallb_forall in Hin. apply (inT_avoids (nd + na)); [now apply Hin|].
  intros j Hjw. unfold place. destruct (Nat.ltb_spec j nd); [now apply dq_other|]. intros Eq. symmetry in Eq. revert Eq. now apply dq_aq.
Qed.
Lemma resets_avoid i' j' : i' < n -> j' < nd -> forallb (avoids (dq n i' j')) (map Reset anc) = true.
Proof.
  intros Hi' Hj. apply forallb_forall. intros o Ho. apply in_map_iff in Ho. destruct Ho as [q [<- Hq]]. cbn [avoids]. apply negb_true_iff, Nat.eqb_neq. intros ->. revert Hq. now apply dq_notin.
Qed.
Lemma blockC_avoids i i' j' : i < n -> i' < n -> i <> i' -> j' < nd -> forallb (avoids (dq n i' j')) (blockC n nd na off rest i) = true.
Proof. intros Hi Hi' Hn Hj. unfold blockC. rewrite forallb_app, resets_avoid, body_avoids by auto. reflexivity. Qed.
(** the body, the ancillas being 0 *)
Lemma body_fixes i cr rec f : i < n -> fixesB n i Pre f -> (forall q, In q anc -> gate GZ [] q f == f) -> fixesB n i Post (st (run (body i) (mkConf cr rec f))).
Proof.
  intros Hi Hf Ha l Hl. rewrite <- (word_place nd (dq n i) (aq n nd) l) by (intros p Hp; exact (stBd_ok nd Post l p Hpost Hl Hp)).
  refine (ends_sound (nd + na) (rho i) (rho_inj i Hi) off f (roundWords nd na Pre) _ Post rest Hends cr rec l Hl).
  intros l' Hl'. unfold roundWords in Hl'. apply in_app_iff in Hl'. destruct Hl' as [Hl'|Hl'].
  - rewrite word_place by (intros p Hp; exact (stBd_ok nd Pre l' p Hpre Hl' Hp)). now apply Hf.
  - apply in_map_iff in Hl'. destruct Hl' as [j [<- Hj]]. apply in_seq in Hj. intros x. cbn [word map fst snd]. unfold place. rewrite (proj2 (Nat.ltb_ge _ _)) by lia.
    replace (nd + j - nd)%nat with j by lia. apply Ha. unfold ancs. apply in_map. apply in_seq. lia.
Qed.
Lemma block_fixes i cr rec f : i < n -> fixesB n i Pre f -> fixesB n i Post (st (run (blockC n nd na off rest i) (mkConf cr rec f))).
Proof.
  intros Hi Hf. assert (Hnd : NoDup anc) by (apply ancs_nodup; intros j j' _ _ E; unfold aq in E; lia). unfold blockC. rewrite run_app. destruct (resets_ok anc Hnd cr rec f) as [E1 E2]. rewrite E1. apply body_fixes; [exact Hi| |].
  - intros l Hl x. set (rst := map Reset anc).
    assert (Hc : st (run rst (mkConf cr rec (after (word (dq n i) l) f))) == after (word (dq n i) l) (st (run rst (mkConf cr rec f)))).
    { apply (word_comm rst). intros p Hp. apply resets_avoid; [exact Hi|]. exact (stBd_ok nd Pre l p Hpre Hl Hp). }
    rewrite <- Hc. apply run_ext. now apply Hf.
  - intros q Hq x. set (k := length anc) in *. rewrite E2.
    rewrite (gate_ext GZ [] q _ _ E2). apply restored_Z; auto. rewrite taken_length, nrand_resets. reflexivity.
Qed.
Lemma blocks_fix L : NoDup L -> (forall i, In i L -> i < n) -> forall f, (forall i, In i L -> fixesB n i Pre f) ->
  forall cr rec i, In i L -> fixesB n i Post (st (run (flat_map (blockC n nd na off rest) L) (mkConf cr rec f))).
Proof.
  intros Hnd HL f Hf cr rec i Hi. apply (loop_fixes n nd (blockC n nd na off rest)) with (Pre := Pre); auto.
  - intros; now apply blockC_avoids.
  - intros l Hl p Hp. exact (stBd_ok nd Pre l p Hpre Hl Hp).
  - intros l Hl p Hp. exact (stBd_ok nd Post l p Hpost Hl Hp).
  - intros i' cr' rec' g Hi'. apply block_fixes. now apply HL.
Qed.
(** the first block without resets *)
Lemma first_fixes f : cleanAncillas (mkEcc nd na (fun _ _ fl => (fl, [])) (fun _ _ fl => (fl, [])) (fun _ _ fl => (fl, [])) (fun _ _ fl _ => Err QeccException)) n f ->
  (forall i, i < n -> fixesB n i Pre f) -> forall cr rec i, i < n ->
  fixesB n i Post (st (run (flat_map (fun i => (if 0 <? i then map Reset anc else []) ++ body i) (seq 0 n)) (mkConf cr rec f))).
Proof.
  intros Ha Hf cr rec i Hi. destruct n as [|m] eqn:En; [lia|]. rewrite <- En in *. replace (seq 0 n) with (0%nat :: seq 1 m) by (rewrite En; reflexivity). set (F := fun i : nat => (if 0 <? i then map Reset anc else []) ++ body i). cbn [flat_map]. rewrite run_app. change (F 0%nat) with (body 0).
  assert (H0 : 0 < n) by lia. assert (Eb : flat_map F (seq 1 m) = flat_map (blockC n nd na off rest) (seq 1 m)).
  { rewrite !flat_map_concat_map. f_equal. apply map_ext_in. intros j Hj. apply in_seq in Hj. unfold F. rewrite (proj2 (Nat.ltb_lt 0 j)) by lia. reflexivity. }
  rewrite Eb. clear Eb. rewrite (run_st (body 0)).
  assert (HL : forall j, In j (seq 1 m) -> j < n) by (intros j Hj; apply in_seq in Hj; lia).
  destruct (Nat.eq_dec i 0) as [->|Hi0].
  - intros l Hl. apply (frame n nd (blockC n nd na off rest)); auto.
    + intros; now apply blockC_avoids.
    + intros p Hp. exact (stBd_ok nd Post l p Hpost Hl Hp).
    + intros Hj. apply in_seq in Hj. lia.
    + apply (body_fixes 0 cr rec f H0 (Hf 0%nat H0)); [exact Ha|exact Hl].
  - apply blocks_fix; auto; [apply seq_NoDup| |apply in_seq; lia]. intros i' Hi' l Hl x.
    assert (Hb : forall p, In p l -> forallb (avoids (dq n i' (snd p))) (body 0) = true).
    { intros p Hp. apply body_avoids; auto. - intros E. subst i'. apply in_seq in Hi'. lia. - exact (stBd_ok nd Pre l p Hpre Hl Hp). }
    rewrite <- (word_comm (body 0) (dq n i') l Hb cr rec f x). apply run_ext. apply Hf; auto.
Qed.
End Anc.
(** ** Rounds on any state *)
Lemma roundEnc_of e stabs rest : forallb (inT (e_red e + e_cor e)) rest = true -> stBd (e_red e) stabs = true ->
  ends (e_red e + e_cor e) (roundWords (e_red e) (e_cor e) []) stabs rest = true ->
  (forall n ncb c, ceq (run (flat_map (blockC n (e_red e) (e_cor e) ncb rest) (seq 0 n)) c) (run (roundOf e n ncb) c)) -> roundEncodes e stabs.
Proof.
  intros H1 H2 H3 Hr n ncb f cr rec i l Hi Hl x. destruct (Hr n ncb (mkConf cr rec f)) as [_ [_ E]].
  change (gatesOf (fun j => i + j * n)%nat) with (word (dq n i)). rewrite <- (E x). rewrite <- (after_ext _ _ _ E x).
  refine (blocks_fix n (e_red e) (e_cor e) ncb rest [] stabs H1 eq_refl H2 H3 (seq 0 n) (seq_NoDup n 0) _ f _ cr rec i _ l Hl x).
  - intros j Hj. now apply in_all.
  - intros j _ l' [].
  - now apply in_all.
Qed.
