(** * EccRound: a round of syndrome measurement and correction, on one block and on all *)
From Coq Require Import NArith ZArith Ring.
From Verif Require Export EccBlock.
Local Open Scope amp_scope.

(** ** Z[w] has no zero divisors *)
Lemma sqrt2_irr : forall k : nat, forall p q : Z, (0 <= p < Z.of_nat k)%Z -> (p * p = 2 * (q * q))%Z -> p = 0%Z.
Proof.
  induction k as [|k IHk]; intros p q Hp E; [lia|]. destruct (Z.eq_dec p 0) as [|Hp0]; [auto|exfalso].
  assert (Ep : Z.even p = true). { rewrite <- (orb_diag (Z.even p)), <- Z.even_mul, E, Z.even_mul. reflexivity. }
  apply Z.even_spec in Ep. destruct Ep as [p' ->]. assert (E2 : (q * q = 2 * (p' * p'))%Z) by lia.
  assert (Eq : Z.even q = true). { rewrite <- (orb_diag (Z.even q)), <- Z.even_mul, E2, Z.even_mul. reflexivity. }
  apply Z.even_spec in Eq. destruct Eq as [q' ->]. assert (E3 : (p' * p' = 2 * (q' * q'))%Z) by lia.
  assert (p' = 0)%Z by (apply (IHk p' q'); lia). lia.
Qed.
Lemma amul_integral x y : x * y = azero -> x = azero \/ y = azero.
Proof.
  destruct x as [a b c d], y as [e f g h]. unfold amul, azero. intros H.
  assert (H1 := f_equal (fun z => let '(Am a _ _ _) := z in a) H). assert (H2 := f_equal (fun z => let '(Am _ a _ _) := z in a) H).
  assert (H3 := f_equal (fun z => let '(Am _ _ a _) := z in a) H). assert (H4 := f_equal (fun z => let '(Am _ _ _ a) := z in a) H). cbv beta iota in H1, H2, H3, H4. clear H.
  set (p := (a * a + b * b + c * c + d * d)%Z). set (q := (a * b + b * c + c * d - d * a)%Z).
  set (p' := (e * e + f * f + g * g + h * h)%Z). set (q' := (e * f + f * g + g * h - h * e)%Z).
  assert (Sq : forall z : Z, (0 <= z * z)%Z) by (intros; apply Z.square_nonneg).
  assert (Z4 : forall u v s t : Z, (u * u + v * v + s * s + t * t = 0)%Z -> Am u v s t = Am 0 0 0 0).
  { intros u v s t Hs. pose proof (Sq u). pose proof (Sq v). pose proof (Sq s). pose proof (Sq t). f_equal; apply Z.mul_eq_0_r || idtac; nia. }
  set (s1 := (a * e - b * h - c * g - d * f)%Z) in *. set (s2 := (a * f + b * e - c * h - d * g)%Z) in *.
  set (s3 := (a * g + b * f + c * e - d * h)%Z) in *. set (s4 := (a * h + b * g + c * f + d * e)%Z) in *.
  assert (M1 : (p * p' + 2 * (q * q') = s1 * s1 + s2 * s2 + s3 * s3 + s4 * s4)%Z) by (unfold p, q, p', q', s1, s2, s3, s4; ring).
  assert (M2 : (p * q' + q * p' = s1 * s2 + s2 * s3 + s3 * s4 - s4 * s1)%Z) by (unfold p, q, p', q', s1, s2, s3, s4; ring).
  rewrite H1, H2, H3, H4 in M1, M2. clearbody s1 s2 s3 s4.
  destruct (Z.eq_dec p 0) as [Ep|Ep]; [left; apply Z4; exact Ep|]. destruct (Z.eq_dec p' 0) as [Ep'|Ep']; [right; apply Z4; exact Ep'|]. exfalso.
  assert (Hp : (0 <= p)%Z) by (unfold p; pose proof (Sq a); pose proof (Sq b); pose proof (Sq c); pose proof (Sq d); lia). clearbody p q p' q'.
  assert (Eq : ((p * p) * p' = (2 * (q * q)) * p')%Z).
  { assert (X1 : (p * (p * p' + 2 * (q * q')) = 0)%Z) by (rewrite M1; ring). assert (X2 : (2 * q * (p * q' + q * p') = 0)%Z) by (rewrite M2; ring). lia. }
  apply Z.mul_cancel_r in Eq; [|exact Ep']. apply Ep. apply (sqrt2_irr (S (Z.to_nat p)) p q); [lia|exact Eq].
Qed.

(** a Pauli error on a block: the gate and the qubit of the block, or none *)
Definition perr := option (gt * nat).
Definition eword (e : perr) : list (gt * nat) := match e with Some p => [p] | None => [] end.
Definition eops (d : nat -> nat) (e : perr) : list op := word d (eword e).

Definition nrand (os : list op) : nat := length (filter isRand os).
Lemma taken_app os : forall s t, length s = nrand os -> taken os (s ++ t) = s.
Proof.
  unfold nrand. induction os as [|o os IHo]; intros s t Hs; [now destruct s|]. cbn [filter taken] in *. destruct (isRand o); [|now apply IHo].
  destruct s as [|b s]; [discriminate|]. cbn [length app hd tl] in *. f_equal. apply IHo. lia.
Qed.
Lemma run_outs os : forall c, outs (run os c) = skipn (nrand os) (outs c).
Proof.
  unfold nrand, run. induction os as [|o os IHo]; intros c; [reflexivity|]. cbn [fold_left filter]. rewrite IHo.
  assert (G : forall (l : list bool) n, skipn n (tl l) = skipn (S n) l) by (intros [|b l] n; [destruct n; reflexivity|reflexivity]).
  destruct o; cbn [isRand step outs length]; try reflexivity; apply G.
Qed.
Lemma nrand_ren rho off os : nrand (map (ren rho off) os) = nrand os.
Proof. unfold nrand. induction os as [|o os IHo]; [reflexivity|]. cbn [map filter]. rewrite ren_rand. destruct (isRand o); cbn [length]; congruence. Qed.
Lemma nrand_resets l : nrand (map Reset l) = length l.
Proof. unfold nrand. induction l; cbn [map filter isRand length]; congruence. Qed.
Lemma taken_length os : forall rec, length (taken os rec) = nrand os.
Proof. unfold nrand. induction os as [|o os IHo]; intros rec; [reflexivity|]. cbn [taken filter]. destruct (isRand o); cbn [length]; rewrite IHo; reflexivity. Qed.

Fixpoint beql (a b : list bool) : bool := match a, b with [], [] => true | x :: a', y :: b' => Bool.eqb x y && beql a' b' | _, _ => false end.
Lemma beql_eq a : forall b, beql a b = true -> a = b.
Proof. induction a as [|x a IHa]; intros [|y b]; cbn [beql]; try discriminate; [reflexivity|]. rewrite andb_true_iff. intros [E1 E2]. apply eqb_prop in E1. apply IHa in E2. congruence. Qed.
Lemma beql_refl a : beql a a = true. Proof. induction a; cbn [beql]; auto. now rewrite eqb_reflx. Qed.

Lemma setTo_agree qs : forall bs x y, length bs = length qs -> (forall q, ~ In q qs -> bit x q = bit y q) -> setTo qs bs x = setTo qs bs y.
Proof.
  intros bs x y Hl H. apply bit_ext. revert bs x y Hl H. induction qs as [|p qs IHq]; intros [|b bs] x y Hl H q; cbn [setTo length] in *; try discriminate; [apply H; auto|].
  rewrite !bit_upd. destruct (Nat.eqb_spec p q) as [->|Hn]; [reflexivity|]. destruct (in_dec Nat.eq_dec q qs) as [Hi|Hi].
  - assert (G : forall cs, length cs = length qs -> bit (setTo qs cs x) q = bit (setTo qs cs y) q).
    { clear - Hi. induction qs as [|p qs IHq]; intros [|c cs] Hl; cbn [setTo length] in *; try discriminate; [destruct Hi|]. rewrite !bit_upd.
      destruct (Nat.eqb_spec p q); [reflexivity|]. apply IHq; [destruct Hi; [contradiction|auto]|lia]. }
    apply G. lia.
  - rewrite !bit_setTo by auto. apply H. intros [E|E]; [congruence|contradiction].
Qed.
Lemma setTo_in qs : forall bs x y q, length bs = length qs -> In q qs -> bit (setTo qs bs x) q = bit (setTo qs bs y) q.
Proof.
  induction qs as [|p qs IHq]; intros [|c cs] x y q Hl Hi; cbn [setTo length] in *; try discriminate; [destruct Hi|]. rewrite !bit_upd.
  destruct (Nat.eqb_spec p q); [reflexivity|]. apply IHq; [lia|]. destruct Hi; [contradiction|auto].
Qed.
Lemma setTo_setTo qs bs cs x : length bs = length qs -> setTo qs bs (setTo qs cs x) = setTo qs bs x.
Proof. intros Hl. apply setTo_agree; auto. intros q Hq. now apply bit_setTo. Qed.
Lemma reads_setTo qs : NoDup qs -> forall bs cs x, length bs = length qs -> length cs = length qs -> reads qs bs (setTo qs cs x) = beql bs cs.
Proof.
  induction 1 as [|q qs Hq Hnd IHq]; intros [|b bs] [|c cs] x Hb Hc; try discriminate; [reflexivity|]. cbn [setTo reads combine forallb fst snd beql].
  rewrite bit_upd, Nat.eqb_refl. fold (reads qs bs (upd (setTo qs cs x) q c)). rewrite reads_upd by auto. rewrite IHq by (cbn [length] in *; lia).
  f_equal. destruct b, c; reflexivity.
Qed.
Lemma restored_restored anc k k' r r' m m' f : NoDup anc -> length m = length anc -> length r = length anc -> length r' = length anc ->
  restored anc k' r' m' (restored anc k r m f) == restored anc (if beql m r' then k' * k else azero) r m' f.
Proof.
  intros Hnd Hm Hr Hr' x. unfold restored. destruct (reads anc m' x); [|reflexivity]. rewrite reads_setTo by auto. destruct (beql m r').
  - rewrite setTo_setTo by auto. ring.
  - rewrite amul_0_r, amul_0_l. reflexivity.
Qed.
Lemma gX q f : gate GX [] q f == Xop q f.
Proof.
  intros x. unfold gate, Xop. cbn [active forallb mat u2]. pose proof (upd_flip x q) as E. destruct (bit x q); cbn [negb] in E; rewrite E, amul_0_l, amul_1_l; ring.
Qed.

(** ** One block *)
Definition place (nd : nat) (d a : nat -> nat) (j : nat) : nat := if j <? nd then d j else a (j - nd)%nat.
Definition ancs (na : nat) (a : nat -> nat) : list nat := map a (seq 0 na).
Definition roundWords (nd na : nat) (stabs : list (list (gt * nat))) : list (list (gt * nat)) := stabs ++ map (fun j => [(GZ, (nd + j)%nat)]) (seq 0 na).
(** from a state of the code with the ancillas 0 and the error [e], the only possible outcomes are [synd], the ancillas end as [mo], and what is left of
    the error is an X on the qubit [res] *)
Definition roundChk (nd na : nat) (stabs : list (list (gt * nat))) (rest : list op) (e : perr) (res : option nat) (synd mo : list bool) : bool :=
  let os := word (fun j => j) (eword e) ++ rest ++ word (fun j => j) (eword (option_map (fun j => (GX, j)) res)) in
  chkW (nd + na) (roundWords nd na stabs)
    (fun t s => beql t synd &&
                match sk s, ss s with
                | 0, [(c, (u, v))] => negb (aeqb c azero) && N.eqb v 0 && N.eqb (N.modulo u (2 ^ N.of_nat nd)) 0 &&
                                      beql (map (fun k => bit u (nd + k)) (seq 0 na)) mo
                | _, _ => false
                end) os &&
  match simRW (nd + na) (roundWords nd na stabs) os synd with Some s => (sk s =? 0) && match ss s with [(c, (u, v))] => negb (aeqb c azero) && N.eqb v 0 && N.eqb (N.modulo u (2 ^ N.of_nat nd)) 0 &&
                                      beql (map (fun k => bit u (nd + k)) (seq 0 na)) mo | _ => false end | None => false end &&
  (length synd =? nrand rest) && match res with Some j => j <? nd | None => true end && forallb (forallb (fun p => snd p <? nd)) stabs &&
  match e with Some p => snd p <? nd | None => true end.

Section Block.
Variables (nd na : nat) (d a : nat -> nat) (off : nat).
Hypothesis dinj : forall i j, i < nd -> j < nd -> d i = d j -> i = j.
Hypothesis ainj : forall i j, i < na -> j < na -> a i = a j -> i = j.
Hypothesis disj : forall i j, i < nd -> j < na -> d i <> a j.
Notation rho := (place nd d a).
Notation w := (nd + na)%nat.
Lemma place_inj i j : i < w -> j < w -> rho i = rho j -> i = j.
Proof.
  unfold place. intros Hi Hj. destruct (Nat.ltb_spec i nd), (Nat.ltb_spec j nd); intros E.
  - now apply dinj.
  - exfalso. revert E. apply disj; lia.
  - exfalso. symmetry in E. revert E. apply disj; lia.
  - apply ainj in E; lia.
Qed.
Lemma ancs_nodup : NoDup (ancs na a).
Proof.
  unfold ancs. assert (G : forall l, NoDup l -> (forall i, In i l -> i < na) -> NoDup (map a l)).
  { induction 1 as [|i l Hi Hl IHl]; intros Hb; [constructor|]. cbn [map]. constructor; [|apply IHl; intros; apply Hb; now right].
    rewrite in_map_iff. intros [j [E Hj]]. apply ainj in E; [subst; contradiction|apply Hb; now right|apply Hb; now left]. }
  apply G; [apply seq_NoDup|]. intros i Hi. apply in_seq in Hi. lia.
Qed.
Lemma d_notin j : j < nd -> ~ In (d j) (ancs na a).
Proof. intros Hj Hi. unfold ancs in Hi. rewrite in_map_iff in Hi. destruct Hi as [k [E Hk]]. apply in_seq in Hk. symmetry in E. revert E. apply disj; auto; lia. Qed.
Lemma ancs_length : length (ancs na a) = na. Proof. unfold ancs. now rewrite map_length, seq_length. Qed.

Lemma word_place l : (forall p, In p l -> snd p < nd) -> word rho l = word d l.
Proof. intros H. unfold word. apply map_ext_in. intros p Hp. unfold place. rewrite (proj2 (Nat.ltb_lt _ _) (H p Hp)). reflexivity. Qed.

(** the flips of ancillas *)
Lemma restored_flip r c f u : length r = na -> (forall j, j < nd -> bit u j = false) ->
  forall x, c * restored (ancs na a) aone r (repeat false na) f (N.lxor x (D w rho u)) = restored (ancs na a) c r (map (fun k => bit u (nd + k)) (seq 0 na)) f x.
Proof.
  intros Hr Hu x. set (y := N.lxor x (D w rho u)).
  assert (Hy : forall q, ~ In q (ancs na a) -> bit y q = bit x q).
  { intros q Hq. unfold y. rewrite bit_lxor. replace (bit (D w rho u) q) with false; [apply xorb_false_r|]. symmetry. unfold D.
    assert (G : forall l, (forall j, In j l -> j < w) -> bit (fold_right (fun j acc => if bit u j then N.lxor (pw2 (rho j)) acc else acc) 0%N l) q = false).
    { induction l as [|j l IHl]; intros Hl; cbn [fold_right]; [apply bit_0|]. pose proof (IHl (fun j Hj => Hl j (or_intror Hj))) as E. destruct (bit u j) eqn:Ej; [|exact E].
      rewrite bit_lxor, E, bit_pw2, xorb_false_r. apply Nat.eqb_neq. intros Er. apply Hq. subst q. unfold place. destruct (Nat.ltb_spec j nd) as [Hj|Hj]; [rewrite (Hu j Hj) in Ej; discriminate|].
      apply in_map, in_seq. specialize (Hl j (or_introl eq_refl)). lia. }
    apply G. intros j Hj. apply in_seq in Hj. lia. }
  assert (Ha : forall k, k < na -> bit y (a k) = xorb (bit x (a k)) (bit u (nd + k))).
  { intros k Hk. unfold y. rewrite bit_lxor. f_equal. rewrite <- (bit_D w rho place_inj u (nd + k)) by lia. f_equal. unfold place.
    rewrite (proj2 (Nat.ltb_ge _ _)) by lia. f_equal. lia. }
  unfold restored. replace (reads (ancs na a) (repeat false na) y) with (reads (ancs na a) (map (fun k => bit u (nd + k)) (seq 0 na)) x).
  - rewrite (setTo_agree _ r y x) by (rewrite ?ancs_length; auto). destruct (reads _ _ x); [ring|apply amul_0_r].
  - unfold reads, ancs. clear - Ha. assert (G : forall k s, (s + k <= na)%nat ->
      forallb (fun p : nat * bool => Bool.eqb (bit x (fst p)) (snd p)) (combine (map a (seq s k)) (map (fun k => bit u (nd + k)) (seq s k))) =
      forallb (fun p : nat * bool => Bool.eqb (bit y (fst p)) (snd p)) (combine (map a (seq s k)) (repeat false k))).
    { induction k as [|k IHk]; intros s Hs; [reflexivity|]. cbn [seq map repeat combine forallb fst snd]. rewrite IHk by lia. rewrite Ha by lia. f_equal.
      now destruct (bit x (a s)), (bit u (nd + s)). }
    apply G. lia.
Qed.

(** the factor does not depend on the state or on the classical bits *)
Theorem round_block stabs rest e res synd mo :
  roundChk nd na stabs rest e res synd mo = true -> exists K : list bool -> amp, forall f,
  (forall l, In l stabs -> after (word d l) f == f) ->
  forall cr rec,
    st (run (map Reset (ancs na a) ++ map (ren rho off) rest) (mkConf cr rec (after (eops d e) f))) ==
      restored (ancs na a) (K rec) (taken (map Reset (ancs na a)) rec) mo (after (eops d (option_map (fun j => (GX, j)) res)) f) /\
    (K rec <> azero <-> taken rest (skipn na rec) = synd) /\ length mo = na.
Proof.
  unfold roundChk. rewrite !andb_true_iff. intros [[[[[Hchk Hsim] Hlen] Hres] Hst] He].
  set (amp0 := match simRW w (roundWords nd na stabs) (word (fun j => j) (eword e) ++ rest ++ word (fun j => j) (eword (option_map (fun j => (GX, j)) res))) synd with Some s => match ss s with (c, _) :: _ => c | [] => azero end | None => azero end).
  exists (fun rec => if list_eq_dec Bool.bool_dec (taken rest (skipn na rec)) synd then amp0 else azero). intros f Hf cr rec.
  set (r := taken (map Reset (ancs na a)) rec).
  assert (Hrl : length r = na) by (unfold r; now rewrite taken_length, nrand_resets, ancs_length).
  set (f0 := restored (ancs na a) aone r (repeat false na) f). rewrite run_app.
  assert (He' : forall p, In p (eword e) -> snd p < nd).
  { intros p Hp. destruct e as [p0|]; [|destruct Hp]. destruct Hp as [<-|[]]. now apply Nat.ltb_lt. }
  destruct (resets_ok (ancs na a) ancs_nodup cr rec (after (eops d e) f)) as [E1 E2]. rewrite E1, ancs_length. rewrite ancs_length in E2. fold r in E2.
  assert (E3 : st (run (map Reset (ancs na a)) (mkConf cr rec (after (eops d e) f))) == after (eops d e) f0).
  { intros x. rewrite E2. unfold eops. rewrite (word_restored (ancs na a) aone r (repeat false na) d (eword e) f); [reflexivity|].
    intros p Hp. apply d_notin. now apply He'. }
  (* the words fix f0 *)
  assert (Hst' : forall l, In l stabs -> forall p, In p l -> snd p < nd).
  { intros l Hl p Hp. rewrite forallb_forall in Hst. specialize (Hst l Hl). rewrite forallb_forall in Hst. now apply Nat.ltb_lt, Hst. }
  assert (Hw : forall l, In l (roundWords nd na stabs) -> after (word rho l) f0 == f0).
  { intros l Hl. unfold roundWords in Hl. apply in_app_iff in Hl. destruct Hl as [Hl|Hl].
    - rewrite (word_place l) by (now apply Hst'). intros x. unfold f0. rewrite word_restored by (intros p Hp; apply d_notin; now apply (Hst' l Hl)).
      now apply restored_ext, Hf.
    - apply in_map_iff in Hl. destruct Hl as [j [<- Hj]]. apply in_seq in Hj. intros x. cbn [word map fst snd]. rewrite after_gate. unfold f0. rewrite after_nil.
      pose proof (restored_Z (ancs na a) aone r f (rho (nd + j)%nat) ancs_nodup) as G. rewrite ancs_length in G. apply G; [|exact Hrl].
      unfold place. rewrite (proj2 (Nat.ltb_ge _ _)) by lia. apply in_map, in_seq. lia. }
  set (c0 := mkConf cr (skipn na rec) f0).
  set (rw := option_map (fun j => (GX, j)) res) in *.
  assert (Hrw : forall p, In p (eword rw) -> snd p < nd).
  { intros p Hp. unfold rw in Hp. destruct res as [j|]; [|destruct Hp]. destruct Hp as [<-|[]]. now apply Nat.ltb_lt. }
  set (os := word (fun j => j) (eword e) ++ rest ++ word (fun j => j) (eword rw)) in *.
  set (out := st (run (map (ren rho off) rest) (mkConf cr (skipn na rec) (st (run (map Reset (ancs na a)) (mkConf cr rec (after (eops d e) f))))))).
  assert (Erun : st (run (map (ren rho off) os) c0) == after (eops d rw) out).
  { intros x. unfold os. rewrite !map_app, !run_app, !ren_word. change (word (fun j => rho j) (eword e)) with (word rho (eword e)). change (word (fun j => rho j) (eword rw)) with (word rho (eword rw)).
    rewrite (word_place _ He'), (word_place _ Hrw). unfold c0. rewrite (run_word d (eword e)).
    set (c1 := run (map (ren rho off) rest) _). transitivity (after (word d (eword rw)) (st c1) x); [destruct c1; apply st_word|]. apply after_ext. intros y. unfold c1, out.
    apply run_ext. intros z. rewrite E3. apply st_word. }
  assert (Einv : out == after (eops d rw) (after (eops d rw) out)).
  { intros x. unfold eops, rw. destruct res as [j|]; cbn [option_map eword word map fst snd]; [|reflexivity]. rewrite !after_gate, !after_nil.
    symmetry. rewrite (gX (d j) _ x). unfold Xop at 1. rewrite after_gate, after_nil. rewrite (gX (d j) out (flipb x (d j))). unfold Xop, flipb. now rewrite N.lxor_assoc, N.lxor_nilpotent, N.lxor_0_r. }
  assert (Htw : forall l t, taken (word (fun j => j) l) t = []) by (induction l as [|p l IHl]; intros t; [reflexivity|]; cbn [word map taken isRand]; apply IHl).
  assert (Htr : forall os1 l t, taken (os1 ++ word (fun j => j) l) t = taken os1 t).
  { induction os1 as [|o os1 IHo]; intros l t; [apply Htw|]. cbn [app taken]. destruct (isRand o); rewrite IHo; reflexivity. }
  assert (Etk : forall t, taken os t = taken rest t).
  { intros t. unfold os. destruct e as [p|]; cbn [eword word map app taken isRand]; apply Htr. }
  apply Nat.eqb_eq in Hlen.
  (* the final form of a leaf *)
  assert (Leaf : forall s, (sk s =? 0) = true -> match ss s with [(c, (u, v))] => negb (aeqb c azero) && N.eqb v 0 && N.eqb (N.modulo u (2 ^ N.of_nat nd)) 0 &&
                                      beql (map (fun k => bit u (nd + k)) (seq 0 na)) mo | _ => false end = true ->
                 rel w rho off f0 s (run (map (ren rho off) os) c0) ->
                 exists k, k = match ss s with (c, _) :: _ => c | [] => azero end /\ k <> azero /\ length mo = na /\ st (run (map (ren rho off) os) c0) == restored (ancs na a) k r mo f).
  { intros s Hk Hs [Hr _]. apply Nat.eqb_eq in Hk. destruct (ss s) as [|[c [u v]] [|]] eqn:Es; try discriminate. rewrite !andb_true_iff in Hs. destruct Hs as [[[Hc Hv] Hu] Hm].
    apply N.eqb_eq in Hv, Hu. subst v. apply beql_eq in Hm. exists c. split; [reflexivity|]. split; [intros ->; discriminate Hc|]. split; [rewrite <- Hm, map_length, seq_length; reflexivity|].
    assert (HuA : forall j, j < nd -> bit u j = false).
    { intros j Hj. unfold bit. rewrite <- (N.mod_pow2_bits_low u (N.of_nat nd)) by lia. rewrite Hu. apply N.bits_0. }
    intros x. specialize (Hr x). cbn [fst snd] in Hr. rewrite Hk, two_0, den_cons, den_nil in Hr. cbn [fst snd] in Hr. unfold pact in Hr. cbn [fst snd] in Hr.
    rewrite par_0 in Hr. cbn [sg] in Hr. transitivity (c * f0 (N.lxor x (D w rho u))); [transitivity (aone * st (run (map (ren rho off) os) c0) x); [ring|]; rewrite Hr; ring|].
    unfold f0. rewrite restored_flip by auto. now rewrite Hm. }
  assert (Fin : forall k, st (run (map (ren rho off) os) c0) == restored (ancs na a) k r mo f -> out == restored (ancs na a) k r mo (after (eops d rw) f)).
  { intros k Hk x. rewrite Einv. unfold eops. rewrite <- (word_restored (ancs na a) k r mo d (eword rw) f) by (intros p Hp; apply d_notin; now apply Hrw).
    apply after_ext. intros y. rewrite <- Hk, Erun. reflexivity. }
  destruct (list_eq_dec Bool.bool_dec (taken rest (skipn na rec)) synd) as [Eq|Nq].
  - destruct (simRW w (roundWords nd na stabs) os synd) as [s|] eqn:Es; [|discriminate Hsim].
    apply andb_true_iff in Hsim. destruct Hsim as [Hk Hs].
    assert (Hrel : rel w rho off f0 s (run (map (ren rho off) os) c0)).
    { assert (Es' : simRW w (roundWords nd na stabs) os (outs c0) = Some s).
      { rewrite <- Es. unfold simRW. destruct (wordsT w (roundWords nd na stabs)); [|reflexivity]. unfold c0. cbn [outs].
        assert (G : forall os rec1 rec2 s0, taken os rec1 = taken os rec2 -> simR w (ech l) os rec1 s0 = simR w (ech l) os rec2 s0).
        { induction os0 as [|o os0 IHo]; intros rec1 rec2 s0 Ht; [reflexivity|]. cbn [simR taken] in *. destruct (isRand o) eqn:Er.
          - injection Ht as Eh Ht. rewrite Eh. destruct (sop w o (hd false rec2) s0); [|reflexivity]. now apply IHo.
          - replace (sop w o (hd false rec1) s0) with (sop w o (hd false rec2) s0) by (destruct o; try discriminate; reflexivity).
            destruct (sop w o (hd false rec2) s0); [|reflexivity]. now apply IHo. }
        apply G. rewrite !Etk, Eq. symmetry. transitivity (taken rest (synd ++ [])); [now rewrite app_nil_r|]. now apply taken_app. }
      exact (simRW_sound w rho place_inj off f0 _ _ c0 s Es' Hw (fun x => eq_refl)). }
    destruct (Leaf s Hk Hs Hrel) as [k [Ek [Hk0 [Hm He0]]]]. assert (E0 : amp0 = k) by (unfold amp0; rewrite Ek; reflexivity). rewrite E0. split; [now apply Fin|]. tauto.
  - destruct (chkW_sound w rho place_inj off f0 _ _ _ c0 Hchk Hw (fun x => eq_refl)) as [Hz|[s [HP [_ Hrel]]]].
    + split; [apply Fin; intros x; rewrite Hz; unfold restored, zero; destruct reads; [now rewrite amul_0_l|reflexivity]|]. split; [split; intros; congruence|].
      destruct (simRW w (roundWords nd na stabs) os synd) as [s|]; [|discriminate Hsim]. apply andb_true_iff in Hsim. destruct Hsim as [_ Hs].
      destruct (ss s) as [|[c [u v]] [|]]; try discriminate. rewrite !andb_true_iff in Hs. destruct Hs as [_ Hm]. apply beql_eq in Hm. rewrite <- Hm, map_length, seq_length. reflexivity.
    + exfalso. apply andb_true_iff in HP. destruct HP as [HP _]. apply beql_eq in HP. rewrite Etk in HP. contradiction.
Qed.
End Block.
