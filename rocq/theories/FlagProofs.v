(** * FlagProofs: sequences of ancilla CNOTs with flags measure a stabilizer *)
From Verif Require Export FlagSem.
Local Open Scope nat_scope.

Lemma exec_app l1 : forall l2 o1 o2 psi, length o1 = measurements l1 -> exec (l1 ++ l2) (o1 ++ o2) psi = exec l2 o2 (exec l1 o1 psi).
Proof. induction l1 as [|i l1 IH]; intros l2 o1 o2 psi H.
  - destruct o1; [reflexivity|discriminate].
  - destruct i as [q|c t|q b]; cbn [app exec]; try (now apply IH). cbn [measurements filter length] in H. destruct o1 as [|o o1]; [discriminate|]. cbn [app hd tl]. apply IH. injection H as H. exact H. Qed.
Lemma exec_ext n l : forall outs a b, state_eq n a b -> state_eq n (exec l outs a) (exec l outs b).
Proof. induction l as [|i l IH]; intros outs a b E; auto. destruct i as [q|c t|q m]; cbn [exec]; apply IH; intros x Hx; unfold apply_gate, project.
  - rewrite !E by (now rewrite set_nth_length). auto.
  - apply E. unfold cxv. now rewrite set_nth_length.
  - rewrite E by auto. auto. Qed.
Lemma exec_zero n l outs psi : state_eq n psi (fun _ => 0%Z) -> state_eq n (exec l outs psi) (fun _ => 0%Z).
Proof. revert outs psi. induction l as [|i l IH]; intros outs psi E; auto. destruct i as [q|c t|q m]; cbn [exec]; apply IH; intros x Hx; unfold apply_gate, project.
  - rewrite !E by (now rewrite set_nth_length). destruct (nth q x false); auto.
  - apply E. unfold cxv. now rewrite set_nth_length.
  - rewrite E by auto. now destruct (Bool.eqb _ _). Qed.
Lemma measurements_app l m : measurements (l ++ m) = measurements l + measurements m.
Proof. unfold measurements. now rewrite filter_app, app_length. Qed.

(** events of a gadget *)
Inductive ev := ED (q : nat) | EO (f : nat) | EC (f m : nat).
Definition comp (z : bool) (a : nat) (e : ev) : list ins :=
  match e with
  | ED q => [ancilla_cnot z q a]
  | EO f => flag_init z f ++ [ancilla_cnot z f a]
  | EC f m => ancilla_cnot z f a :: flag_measure z f m
  end.
Definition gadget (z : bool) (a b : nat) (evs : list ev) : list ins := (if z then [] else [IH a]) ++ flat_map (comp z a) evs ++ (if z then [] else [IH a]) ++ [IM a b].
Definition datas (evs : list ev) : list nat := flat_map (fun e => match e with ED q => [q] | _ => [] end) evs.
(** each flag is opened, in order, and later closed; fresh: not opened yet; opn: open *)
Inductive ev_ok : list nat -> list nat -> list ev -> Prop :=
| ok_nil : ev_ok [] [] []
| ok_data q fresh opn evs : ev_ok fresh opn evs -> ev_ok fresh opn (ED q :: evs)
| ok_open f fresh opn evs : ev_ok fresh (f :: opn) evs -> ev_ok (f :: fresh) opn (EO f :: evs)
| ok_close f m fresh o1 o2 evs : ev_ok fresh (o1 ++ o2) evs -> ev_ok fresh (o1 ++ f :: o2) (EC f m :: evs).

Definition memb (q : nat) (l : list nat) : bool := existsb (Nat.eqb q) l.
Lemma memb_in q l : memb q l = true <-> In q l.
Proof. unfold memb. rewrite existsb_exists. split; [intros (y & Hy & E); apply Nat.eqb_eq in E; now subst|]. intros I. exists q. split; auto. apply Nat.eqb_refl. Qed.
Lemma memb_out q l : memb q l = false <-> ~ In q l.
Proof. rewrite <- memb_in. destruct (memb q l); split; auto; try discriminate; congruence. Qed.
Definition clear (l : list nat) (x : vec) : vec := map (fun i => nth i x false && negb (memb i l)) (seq 0 (length x)).
Lemma clear_length l x : length (clear l x) = length x.
Proof. unfold clear. now rewrite map_length, seq_length. Qed.
Lemma nth_clear l x i : nth i (clear l x) false = nth i x false && negb (memb i l).
Proof. unfold clear. destruct (Nat.lt_ge_cases i (length x)) as [H|H].
  - rewrite (nth_indep _ false (nth 0 x false && negb (memb 0 l))) by (now rewrite map_length, seq_length). rewrite (map_nth (fun i => nth i x false && negb (memb i l)) (seq 0 (length x)) 0 i). rewrite seq_nth; auto.
  - rewrite !nth_overflow; auto. now rewrite map_length, seq_length. Qed.
Lemma clear_set l x q v : In q l -> clear l (set_nth q v x) = clear l x.
Proof. intros I. apply (vec_ext (length x)); [now rewrite clear_length, set_nth_length|apply clear_length|]. intros j Hj. rewrite !nth_clear. destruct (Nat.eq_dec j q) as [->|N].
  - replace (memb q l) with true by (symmetry; now apply memb_in). now rewrite !andb_false_r.
  - now rewrite nth_set_nth_neq. Qed.
Lemma clear_same l x : (forall q, In q l -> nth q x false = false) -> clear l x = x.
Proof. intros H. apply (vec_ext (length x)); [apply clear_length|auto|]. intros j Hj. rewrite nth_clear. destruct (memb j l) eqn:E; [|now rewrite andb_true_r]. apply memb_in in E. now rewrite H. Qed.
Definition par (l : list nat) (x : vec) : bool := fold_right (fun q acc => xorb (nth q x false) acc) false l.
Lemma par_app l m x : par (l ++ m) x = xorb (par l x) (par m x).
Proof. induction l as [|q l IH]; [symmetry; apply xorb_false_l|]. change (par ((q :: l) ++ m) x) with (xorb (nth q x false) (par (l ++ m) x)). change (par (q :: l) x) with (xorb (nth q x false) (par l x)).
  rewrite IH. now rewrite xorb_assoc. Qed.
Lemma par_ext l x y : (forall q, In q l -> nth q x false = nth q y false) -> par l x = par l y.
Proof. induction l as [|q l IH]; intros H; auto. cbn. fold (par l x) (par l y). rewrite (H q (or_introl eq_refl)), IH; auto. intros r Hr. apply H. now right. Qed.
Definition zeros (l : list nat) (x : vec) : bool := forallb (fun f => negb (nth f x false)) l.
Lemma zeros_ext l x y : (forall q, In q l -> nth q x false = nth q y false) -> zeros l x = zeros l y.
Proof. induction l as [|q l IH]; intros H; auto. cbn. fold (zeros l x) (zeros l y). rewrite (H q (or_introl eq_refl)), IH; auto. intros r Hr. apply H. now right. Qed.
Lemma zeros_app l m x : zeros (l ++ m) x = zeros l x && zeros m x.
Proof. apply forallb_app. Qed.
Lemma zeros_spec l x : zeros l x = true <-> forall q, In q l -> nth q x false = false.
Proof. unfold zeros. rewrite forallb_forall. split; intros H q I; specialize (H q I); [apply negb_true_iff in H; exact H|rewrite H; reflexivity]. Qed.

Lemma close_perm (f : nat) fresh o1 o2 done : Permutation.Permutation (fresh ++ (o1 ++ f :: o2) ++ done) (f :: fresh ++ o1 ++ o2 ++ done).
Proof. rewrite <- app_assoc. cbn [app]. symmetry. rewrite (app_assoc fresh o1 (f :: o2 ++ done)), (app_assoc fresh o1 (o2 ++ done)). apply Permutation.Permutation_middle. Qed.

Section Gadget.
Variables (n a : nat) (fl : list nat) (psi : state).
Hypothesis An : a < n.
Hypothesis Fn : forall f, In f fl -> f < n.
Hypothesis Na : ~ In a fl.
Hypothesis PC : clean n (a :: fl) psi.
Definition data_ok (S : list nat) : Prop := forall q, In q S -> q < n /\ q <> a /\ ~ In q fl.

(** *** Z measurements *)
Definition zst (c : Z) (S fresh opn done : list nat) (phi : state) : Prop := forall x, length x = n ->
  phi x = if zeros (fresh ++ done) x && Bool.eqb (nth a x false) (xorb (par S x) (par opn x)) then (c * psi (clear (a :: fl) x))%Z else 0%Z.
Lemma z_init : zst 1 [] fl [] [] psi.
Proof. intros x Hx. rewrite app_nil_r. cbn [par fold_right xorb]. destruct (zeros fl x) eqn:EZ; cbn [andb].
  - destruct (nth a x false) eqn:EA; cbn [Bool.eqb].
    + apply PC; auto. exists a. split; auto. now left.
    + rewrite clear_same; [lia|]. intros q [<-|I]; auto. exact (proj1 (zeros_spec fl x) EZ q I).
  - apply PC; auto. unfold zeros in EZ. assert (X : existsb (fun f => nth f x false) fl = true).
    { clear - EZ. induction fl as [|f l IH]; [discriminate|]. cbn in *. destruct (nth f x false); auto. }
    apply existsb_exists in X as (f & I & E). exists f. split; auto. now right. Qed.
Lemma eqb_xor p q r : Bool.eqb (xorb p q) r = Bool.eqb p (xorb r q).
Proof. now destruct p, q, r. Qed.
(** a CNOT from q into the ancilla *)
Lemma z_cx c S fresh opn done phi q : zst c S fresh opn done phi -> q <> a -> data_ok S -> (forall f, In f (fresh ++ opn ++ done) -> f <> a) ->
  forall x, length x = n -> apply_gate phi (GCX q a) x = if zeros (fresh ++ done) x && Bool.eqb (nth a x false) (xorb (xorb (par S x) (par opn x)) (nth q x false)) then (c * psi (clear (a :: fl) x))%Z else 0%Z.
Proof. intros Z Q DO FO x Hx. cbn [apply_gate]. unfold cxv. rewrite Z by (now rewrite set_nth_length). rewrite clear_set by (now left). rewrite nth_set_nth_eq by lia.
  rewrite (zeros_ext _ (set_nth a _ x) x), (par_ext S (set_nth a _ x) x), (par_ext opn (set_nth a _ x) x), eqb_xor; auto.
  - intros r Hr. apply nth_set_nth_neq. apply FO. apply in_app_iff. right. apply in_app_iff. auto.
  - intros r Hr. apply nth_set_nth_neq. apply DO; auto.
  - intros r Hr. apply nth_set_nth_neq. apply FO. apply in_app_iff in Hr. rewrite !in_app_iff. tauto. Qed.
Lemma z_data c S fresh opn done phi q : zst c S fresh opn done phi -> data_ok (S ++ [q]) -> (forall f, In f (fresh ++ opn ++ done) -> f <> a) -> zst c (S ++ [q]) fresh opn done (apply_gate phi (GCX q a)).
Proof. intros Z DO FO x Hx. assert (Hq : q <> a) by (apply DO; apply in_app_iff; right; left; auto). assert (DS : data_ok S) by (intros r Hr; apply DO; apply in_app_iff; auto).
  rewrite (z_cx c S fresh opn done phi q Z Hq DS FO x Hx). rewrite par_app. cbn [par fold_right]. rewrite xorb_false_r. f_equal. f_equal. f_equal. now destruct (par S x), (par opn x), (nth q x false). Qed.
Lemma z_open c S f fresh opn done phi : zst c S (f :: fresh) opn done phi -> data_ok S -> NoDup ((f :: fresh) ++ opn ++ done) -> incl ((f :: fresh) ++ opn ++ done) fl ->
  zst c S fresh (f :: opn) done (apply_gate (apply_gate phi (GH f)) (GCX f a)).
Proof. intros Z DO ND I. assert (Ff : In f fl) by (apply I; left; auto). assert (Fa : f <> a) by (intros ->; contradiction). assert (Fl : f < n) by auto.
  assert (FO : forall g, In g ((f :: fresh) ++ opn ++ done) -> g <> a) by (intros g Hg ->; apply Na, I, Hg). cbn [app] in ND. apply NoDup_cons_iff in ND as [NI ND]. rewrite !in_app_iff in NI.
  assert (H1 : zst c S fresh opn done (apply_gate phi (GH f))).
  { intros x Hx. cbn [apply_gate]. rewrite !Z by (now rewrite set_nth_length). rewrite !clear_set by (now right). cbn [app zeros forallb]. rewrite !nth_set_nth_eq by lia. cbn [negb andb]. rewrite Z.mul_0_r, Z.add_0_r. fold (zeros (fresh ++ done) (set_nth f false x)).
    rewrite (zeros_ext (fresh ++ done) (set_nth f false x) x), (par_ext S (set_nth f false x) x), (par_ext opn (set_nth f false x) x), (nth_set_nth_neq _ f _ x a); auto.
    - intros r Hr. apply nth_set_nth_neq. intros ->. tauto.
    - intros r Hr. apply nth_set_nth_neq. intros ->. apply (DO f Hr); auto.
    - intros r Hr. apply nth_set_nth_neq. intros ->. apply in_app_iff in Hr. tauto. }
  intros x Hx. rewrite (z_cx c S fresh opn done _ f H1 Fa DO); auto.
  - cbn [par fold_right]. fold (par opn x). f_equal. f_equal. f_equal. now destruct (par S x), (par opn x), (nth f x false).
  - intros g Hg. apply FO. right. auto. Qed.
Lemma z_close c S f fresh o1 o2 done phi (o : bool) : zst c S fresh (o1 ++ f :: o2) done phi -> data_ok S -> NoDup (fresh ++ (o1 ++ f :: o2) ++ done) -> incl (fresh ++ (o1 ++ f :: o2) ++ done) fl ->
  if o then state_eq n (project f o (apply_gate (apply_gate phi (GCX f a)) (GH f))) (fun _ => 0%Z)
  else zst (2 * c) S fresh (o1 ++ o2) (f :: done) (project f o (apply_gate (apply_gate phi (GCX f a)) (GH f))).
Proof. intros Z DO ND I. assert (If : In f (fresh ++ (o1 ++ f :: o2) ++ done)) by (rewrite !in_app_iff; right; left; right; left; auto).
  assert (Ff : In f fl) by (now apply I). assert (Fa : f <> a) by (intros ->; contradiction). assert (Fl : f < n) by auto.
  assert (FO : forall g, In g (fresh ++ (o1 ++ f :: o2) ++ done) -> g <> a) by (intros g Hg ->; apply Na, I, Hg).
  assert (NI : ~ In f fresh /\ ~ In f o1 /\ ~ In f o2 /\ ~ In f done).
  { pose proof (close_perm f fresh o1 o2 done) as P. apply (Permutation.Permutation_NoDup P) in ND. apply NoDup_cons_iff in ND as [NI _]. rewrite !in_app_iff in NI. tauto. }
  assert (H1 : zst c S fresh (o1 ++ o2) done (apply_gate phi (GCX f a))).
  { intros x Hx. rewrite (z_cx c S fresh _ done phi f Z Fa DO FO x Hx). rewrite !par_app. cbn [par fold_right]. fold (par o2 x). f_equal. f_equal. f_equal. now destruct (par S x), (par o1 x), (par o2 x), (nth f x false). }
  assert (H2 : forall x, length x = n -> apply_gate (apply_gate phi (GCX f a)) (GH f) x = (if nth f x false then 0 else 2 * (if zeros (fresh ++ done) x && Bool.eqb (nth a x false) (xorb (par S x) (par (o1 ++ o2) x)) then c * psi (clear (a :: fl) x) else 0))%Z).
  { intros x Hx. set (phi1 := apply_gate phi (GCX f a)) in *. cbn [apply_gate]. rewrite !H1 by (now rewrite set_nth_length).
    assert (E : forall v, zeros (fresh ++ done) (set_nth f v x) = zeros (fresh ++ done) x /\ par S (set_nth f v x) = par S x /\ par (o1 ++ o2) (set_nth f v x) = par (o1 ++ o2) x /\ nth a (set_nth f v x) false = nth a x false).
    { intros v. split; [|split; [|split]]; [apply zeros_ext|apply par_ext|apply par_ext|apply nth_set_nth_neq; congruence].
      - intros r Hr; apply nth_set_nth_neq; intros ->; rewrite ?in_app_iff in Hr; tauto.
      - intros r Hr; apply nth_set_nth_neq; intros ->. apply (DO f Hr); auto.
      - intros r Hr; apply nth_set_nth_neq; intros ->; rewrite ?in_app_iff in Hr; tauto. }
    destruct (E true) as (-> & -> & -> & ->). destruct (E false) as (-> & -> & -> & ->). rewrite !clear_set by (now right). destruct (nth f x false); lia. }
  destruct o.
  - intros x Hx. unfold project. rewrite H2 by auto. destruct (nth f x false); auto.
  - intros x Hx. unfold project. rewrite H2 by auto. rewrite !zeros_app. cbn [zeros forallb]. fold (zeros done x). destruct (nth f x false); cbn [Bool.eqb negb andb]; [now rewrite andb_false_r|]. destruct (_ && _); lia. Qed.

(** *** X measurements *)
Definition flip (q : nat) (x : vec) : vec := set_nth q (negb (nth q x false)) x.
Definition addv (S : list nat) (x : vec) : vec := fold_right flip x S.
Lemma addv_app S q x : addv (S ++ [q]) x = addv S (flip q x).
Proof. unfold addv. now rewrite fold_right_app. Qed.
Definition eqs (l : list nat) (x : vec) : bool := forallb (fun f => Bool.eqb (nth f x false) (nth a x false)) l.
Lemma eqs_ext l x y : (forall q, In q (a :: l) -> nth q x false = nth q y false) -> eqs l x = eqs l y.
Proof. intros H. unfold eqs. rewrite (H a (or_introl eq_refl)). induction l as [|q l IH]; auto. cbn. rewrite (H q (or_intror (or_introl eq_refl))), IH; auto. intros r [Hr|Hr]; apply H; [left; auto|right; right; auto]. Qed.
Definition xst (S fresh opn done : list nat) (phi : state) : Prop := forall x, length x = n ->
  phi x = if zeros (fresh ++ done) x && eqs opn x then psi (if nth a x false then addv S (clear (a :: fl) x) else clear (a :: fl) x) else 0%Z.
Lemma x_init : xst [] fl [] [] (apply_gate psi (GH a)).
Proof. intros x Hx. cbn [apply_gate]. rewrite app_nil_r. cbn [eqs forallb addv fold_right]. rewrite andb_true_r. replace (if nth a x false then clear (a :: fl) x else clear (a :: fl) x) with (clear (a :: fl) x) by (destruct (nth a x false); auto).
  assert (PT : psi (set_nth a true x) = 0%Z) by (apply PC; [now rewrite set_nth_length|]; exists a; split; [left; auto|apply nth_set_nth_eq; unfold vec in *; lia]). rewrite PT, Z.mul_0_r, Z.add_0_r.
  destruct (zeros fl x) eqn:EZ.
  - f_equal. rewrite <- (clear_set (a :: fl) x a false) by (now left). symmetry. apply clear_same. intros q [<-|I]; [apply nth_set_nth_eq; lia|]. rewrite nth_set_nth_neq by (intros ->; contradiction). exact (proj1 (zeros_spec fl x) EZ q I).
  - apply PC; [now rewrite set_nth_length|]. unfold zeros in EZ. assert (X : existsb (fun f => nth f x false) fl = true).
    { clear - EZ. induction fl as [|f l IH]; [discriminate|]. cbn in *. destruct (nth f x false); auto. }
    apply existsb_exists in X as (f & I & E). exists f. split; [now right|]. rewrite nth_set_nth_neq; auto. intros ->. contradiction. Qed.
Lemma x_data S fresh opn done phi q : xst S fresh opn done phi -> data_ok [q] -> incl (fresh ++ opn ++ done) fl -> xst (S ++ [q]) fresh opn done (apply_gate phi (GCX a q)).
Proof. intros X DO I x Hx. destruct (DO q (or_introl eq_refl)) as (Hq & Qa & Qf). cbn [apply_gate]. unfold cxv. rewrite X by (now rewrite set_nth_length).
  rewrite (nth_set_nth_neq _ q _ x a) by congruence.
  rewrite (zeros_ext _ (set_nth q _ x) x) by (intros r Hr; apply nth_set_nth_neq; intros ->; apply Qf, I; rewrite !in_app_iff in *; tauto).
  rewrite (eqs_ext opn (set_nth q _ x) x) by (intros r [<-|Hr]; apply nth_set_nth_neq; [congruence|intros ->; apply Qf, I; rewrite !in_app_iff; tauto]).
  rewrite addv_app. assert (E : clear (a :: fl) (set_nth q (xorb (nth q x false) (nth a x false)) x) = if nth a x false then flip q (clear (a :: fl) x) else clear (a :: fl) x).
  { unfold vec in *. apply (vec_ext n); [rewrite clear_length, set_nth_length; auto|destruct (nth a x false); unfold flip; rewrite ?set_nth_length, clear_length; auto|]. intros j Hj.
    assert (Mq : memb q (a :: fl) = false) by (apply memb_out; intros [H|H]; congruence || contradiction).
    destruct (nth a x false); unfold flip; rewrite ?nth_set_nth by (rewrite ?clear_length; lia); rewrite !nth_clear, nth_set_nth by lia; destruct (Nat.eqb_spec j q) as [->|N]; rewrite ?Mq, ?andb_true_r, ?xorb_true_r, ?xorb_false_r; auto. }
  rewrite E. destruct (nth a x false); auto. Qed.
Lemma x_open S f fresh opn done phi : xst S (f :: fresh) opn done phi -> NoDup ((f :: fresh) ++ opn ++ done) -> incl ((f :: fresh) ++ opn ++ done) fl ->
  xst S fresh (f :: opn) done (apply_gate phi (GCX a f)).
Proof. intros X ND I x Hx. assert (Ff : In f fl) by (apply I; left; auto). assert (Fa : f <> a) by (intros ->; contradiction). assert (Fl : f < n) by auto.
  cbn [app] in ND. apply NoDup_cons_iff in ND as [NI ND]. rewrite !in_app_iff in NI.
  cbn [apply_gate]. unfold cxv. rewrite X by (now rewrite set_nth_length). rewrite clear_set by (now right). rewrite (nth_set_nth_neq _ f _ x a) by congruence. cbn [app zeros forallb eqs]. rewrite nth_set_nth_eq by lia.
  fold (zeros (fresh ++ done) (set_nth f (xorb (nth f x false) (nth a x false)) x)). fold (eqs opn (set_nth f (xorb (nth f x false) (nth a x false)) x)). fold (eqs opn x).
  rewrite (zeros_ext (fresh ++ done) (set_nth f _ x) x) by (intros r Hr; apply nth_set_nth_neq; intros ->; rewrite in_app_iff in Hr; tauto).
  rewrite (eqs_ext opn (set_nth f _ x) x) by (intros r [<-|Hr]; apply nth_set_nth_neq; [congruence|intros ->; tauto]).
  destruct (zeros (fresh ++ done) x), (eqs opn x), (nth f x false), (nth a x false); auto. Qed.
Lemma x_close S f fresh o1 o2 done phi (o : bool) : xst S fresh (o1 ++ f :: o2) done phi -> NoDup (fresh ++ (o1 ++ f :: o2) ++ done) -> incl (fresh ++ (o1 ++ f :: o2) ++ done) fl ->
  if o then state_eq n (project f o (apply_gate phi (GCX a f))) (fun _ => 0%Z) else xst S fresh (o1 ++ o2) (f :: done) (project f o (apply_gate phi (GCX a f))).
Proof. intros X ND I. assert (If : In f (fresh ++ (o1 ++ f :: o2) ++ done)) by (rewrite !in_app_iff; right; left; right; left; auto).
  assert (Ff : In f fl) by (now apply I). assert (Fa : f <> a) by (intros ->; contradiction). assert (Fl : f < n) by auto.
  assert (NI : ~ In f fresh /\ ~ In f o1 /\ ~ In f o2 /\ ~ In f done).
  { pose proof (close_perm f fresh o1 o2 done) as P. apply (Permutation.Permutation_NoDup P) in ND. apply NoDup_cons_iff in ND as [NI _]. rewrite !in_app_iff in NI. tauto. }
  assert (H : forall x, length x = n -> apply_gate phi (GCX a f) x = if negb (nth f x false) && (zeros (fresh ++ done) x && eqs (o1 ++ o2) x) then psi (if nth a x false then addv S (clear (a :: fl) x) else clear (a :: fl) x) else 0%Z).
  { intros x Hx. cbn [apply_gate]. unfold cxv. rewrite X by (now rewrite set_nth_length). rewrite clear_set by (now right). rewrite (nth_set_nth_neq _ f _ x a) by congruence.
    set (y := set_nth f _ x). rewrite (zeros_ext _ y x) by (intros r Hr; apply nth_set_nth_neq; intros ->; rewrite in_app_iff in Hr; tauto).
    assert (EQ : forall l, ~ In f l -> eqs l y = eqs l x) by (intros l Nl; apply eqs_ext; intros r [<-|Hr]; apply nth_set_nth_neq; [congruence|intros ->; tauto]).
    replace (eqs (o1 ++ f :: o2) y) with (eqs o1 y && (Bool.eqb (nth f y false) (nth a y false) && eqs o2 y)) by (unfold eqs; now rewrite forallb_app).
    replace (eqs (o1 ++ o2) x) with (eqs o1 x && eqs o2 x) by (unfold eqs; now rewrite forallb_app). rewrite !EQ by tauto. replace (nth a y false) with (nth a x false) by (symmetry; apply nth_set_nth_neq; congruence).
    replace (nth f y false) with (xorb (nth f x false) (nth a x false)) by (symmetry; apply nth_set_nth_eq; lia). destruct (zeros (fresh ++ done) x), (eqs o1 x), (eqs o2 x), (nth f x false), (nth a x false); auto. }
  destruct o; intros x Hx; unfold project; rewrite H by auto.
  - destruct (nth f x false); auto.
  - rewrite !zeros_app. cbn [zeros forallb]. fold (zeros done x). destruct (nth f x false), (zeros fresh x), (zeros done x), (eqs (o1 ++ o2) x); auto. Qed.
End Gadget.
