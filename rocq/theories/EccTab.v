(** * EccTab: stabilizer tableaux.  A cheaper check than [endsIn] for Clifford circuits: only the signed Pauli operators that fix the state are tracked. *)
From Coq Require Import NArith ZArith Ring.
From Verif Require Export EccTool.
Local Open Scope amp_scope.

Definition trip := (bool * N * N)%type.
Definition tmul (t t' : trip) : trip :=
  let '(b, u, v) := t in let '(b', u', v') := t' in (xorb (xorb b b') (pop (N.land v u')), N.lxor u u', N.lxor v v').
Definition cj (g : gt) (ctl : list (nat * bool)) (q : nat) (t : trip) : option trip :=
  let '(b, u, v) := t in
  match ctl, g with
  | [], GX => Some (xorb b (bit v q), u, v)
  | [], GY => Some (xorb b (xorb (bit u q) (bit v q)), u, v)
  | [], GZ => Some (xorb b (bit u q), u, v)
  | [], GH => Some (xorb b (bit u q && bit v q), upd u q (bit v q), upd v q (bit u q))
  | [(c, true)], GX => if c =? q then None else Some (b, if bit u c then N.lxor u (pw2 q) else u, if bit v q then N.lxor v (pw2 c) else v)
  | [(c, true)], GZ =>
      if c =? q then None
      else Some (xorb b (bit u c && bit u q), u, N.lxor (if bit u q then N.lxor v (pw2 c) else v) (if bit u c then pw2 q else 0%N))
  | [(c, true)], GY => if (c =? q) || bit u c then None else Some (b, u, if xorb (bit u q) (bit v q) then N.lxor v (pw2 c) else v)
  | _, _ => None
  end.
(** what is not followed is dropped *)
Fixpoint mapO {A B} (f : A -> option B) (l : list A) : list B :=
  match l with [] => [] | a :: l' => match f a with Some b => b :: mapO f l' | None => mapO f l' end end.
Definition tGate (w : nat) (g : gt) (ctl : list (nat * bool)) (q : nat) (ts : list trip) : option (list trip) :=
  if (q <? w) && forallb (fun p => fst p <? w) ctl then Some (mapO (cj g ctl q) ts) else None.
(** a measurement of q with outcome b: the operators that do not commute with Z on q go, but for their products *)
Fixpoint split1 (q : nat) (ts : list trip) : option trip * list trip :=
  match ts with
  | [] => (None, [])
  | t :: ts' =>
      let '(p, r) := split1 q ts' in
      if bit (snd (fst t)) q then match p with None => (Some t, r) | Some t0 => (Some t0, tmul t0 t :: r) end else (p, t :: r)
  end.
Definition tMeas (q : nat) (b : bool) (ts : list trip) : list trip := snd (split1 q ts) ++ [(b, 0%N, pw2 q)].
(** the sign with which the operator is in the group *)
Definition decided (gs : list gen) (t : trip) : option bool :=
  let '(b, u, v) := t in
  let '(c, (u', v')) := fold_left redT gs (sg b, (u, v)) in
  if N.eqb u' 0 && N.eqb v' 0 then Some (negb (aeqb c aone)) else None.
Definition impossible (q : nat) (b : bool) (ts : list trip) : bool :=
  match fst (split1 q ts) with
  | Some _ => false
  | None => match decided (ech ts) (b, 0%N, pw2 q) with Some true => true | _ => false end
  end.
Record tst := mkT { tc : N; tm : N; tts : list trip }.
Definition tOp (w : nat) (o : op) (b : bool) (s : tst) : option tst :=
  let wrap r := match r with Some ts => Some (mkT (tc s) (tm s) ts) | None => None end in
  match o with
  | Gate g ctl t => wrap (tGate w g ctl t (tts s))
  | Swap _ _ => None
  | Reset q => if q <? w then wrap (if b then tGate w GX [] q (tMeas q true (tts s)) else Some (tMeas q false (tts s))) else None
  | Meas q c => if q <? w then Some (mkT (upd (tc s) c b) (upd (tm s) c true) (tMeas q b (tts s))) else None
  | If g t lo wd v => if known (tm s) lo wd then if N.eqb (value (tc s) lo wd) (N.of_nat v) then wrap (tGate w g [] t (tts s)) else Some s else None
  end.
Definition measured (o : op) : option nat := match o with Reset q | Meas q _ => Some q | _ => None end.
Section Chk.
Variables (w : nat) (goal : list trip).
Fixpoint tchk (os : list op) (s : tst) : bool :=
  match os with
  | [] => let gs := ech (tts s) in forallb (fun t => match decided gs t with Some false => true | _ => false end) goal
  | o :: os' =>
      let go b := match tOp w o b s with Some s' => tchk os' s' | None => false end in
      match measured o with
      | Some q => (if (q <? w) && impossible q false (tts s) then true else go false) && (if (q <? w) && impossible q true (tts s) then true else go true)
      | None => go false
      end
  end.
End Chk.
(** from any state fixed by the words, every outcome of the circuit is fixed by the words' *)
Definition tabEnds (w : nat) (words words' : list (list (gt * nat))) (os : list op) : bool :=
  match wordsT w words, wordsT w words' with Some ts, Some goal => tchk w goal os (mkT 0 0 ts) | _, _ => false end.

Section Tab.
Variables (w : nat) (rho : nat -> nat).
Hypothesis inj : forall i j, i < w -> j < w -> rho i = rho j -> i = j.
Variable off : nat.
Notation fixesT := (fixesT w rho).
Notation pact := (pact w rho).
Notation par := (par w rho).
Notation D := (D w rho).
Lemma lxor2 x y : N.lxor (N.lxor x y) y = x.
Proof. now rewrite N.lxor_assoc, N.lxor_nilpotent, N.lxor_0_r. Qed.
Lemma fixesT_ext f g t : f == g -> fixesT f t -> fixesT g t.
Proof. destruct t as [[b u] v]. intros E [Hu Hf]. split; [exact Hu|]. intros x. rewrite <- (E x), <- (Hf x). unfold EccSim.pact. now rewrite E. Qed.
Lemma tmul_ok f t t' : fixesT f t -> fixesT f t' -> fixesT f (tmul t t').
Proof.
  destruct t as [[b u] v], t' as [[b' u'] v']. intros [Hu Hf] [Hu' Hf']. split.
  - intros i Hi. rewrite bit_lxor, Hu, Hu' by auto. reflexivity.
  - intros x. rewrite !sg_xor. transitivity (sg b * sg b' * (sg (pop (N.land v u')) * pact (N.lxor u u', N.lxor v v') f x)); [ring|]. rewrite <- pact_mul by auto.
    rewrite <- (Hf x). unfold EccSim.pact at 1 3. cbn [fst snd]. rewrite <- (Hf' (N.lxor x (D u))). ring.
Qed.
Lemma bitD u x q : q < w -> bit (N.lxor x (D u)) (rho q) = xorb (bit x (rho q)) (bit u q).
Proof. intros Hq. now rewrite bit_lxor, bit_D. Qed.
(** gates *)
Lemma u2_flip m q f x : u2 m q f x = (let '(m00, m01, m10, m11) := m in if bit x q then m10 * f (flipb x q) + m11 * f x else m00 * f x + m01 * f (flipb x q)).
Proof.
  unfold u2. destruct m as [[[m00 m01] m10] m11]. pose proof (upd_same x q) as E1. pose proof (upd_flip x q) as E2. destruct (bit x q) eqn:E; cbn [negb] in E2; now rewrite E1, E2.
Qed.
Lemma gX_form q f x : gate GX [] q f x = f (flipb x q).
Proof. unfold gate. cbn [active forallb]. rewrite u2_flip. cbn [mat]. destruct (bit x q); rewrite amul_0_l, amul_1_l; ring. Qed.
Lemma gZ_form q f x : gate GZ [] q f x = sg (bit x q) * f x.
Proof. unfold gate. cbn [active forallb]. rewrite u2_flip. cbn [mat]. destruct (bit x q); rewrite amul_0_l; cbn [sg]; ring. Qed.
Lemma gY_form q f x : gate GY [] q f x = sg (negb (bit x q)) * aI * f (flipb x q).
Proof. unfold gate. cbn [active forallb]. rewrite u2_flip. cbn [mat]. destruct (bit x q); rewrite amul_0_l; cbn [sg negb]; ring. Qed.
Lemma gH_form q f x : gate GH [] q f x = f (flipb x q) + sg (bit x q) * f x.
Proof. unfold gate. cbn [active forallb]. rewrite u2_flip. cbn [mat]. destruct (bit x q); cbn [sg]; ring. Qed.
Lemma gCX_form c q f x : gate GX [(c, true)] q f x = f (if bit x c then flipb x q else x).
Proof.
  unfold gate. cbn [active forallb fst snd]. rewrite andb_true_r. destruct (bit x c); cbn [Bool.eqb].
  - exact (gX_form q f x).
  - cbn [unit_of]. ring.
Qed.
Lemma gCZ_form c q f x : gate GZ [(c, true)] q f x = sg (bit x c && bit x q) * f x.
Proof.
  unfold gate. cbn [active forallb fst snd]. rewrite andb_true_r. destruct (bit x c); cbn [Bool.eqb andb].
  - exact (gZ_form q f x).
  - cbn [unit_of sg]. reflexivity.
Qed.
Lemma gCY_form c q f x : gate GY [(c, true)] q f x = if bit x c then sg (negb (bit x q)) * aI * f (flipb x q) else f x.
Proof.
  unfold gate. cbn [active forallb fst snd]. rewrite andb_true_r. destruct (bit x c); cbn [Bool.eqb].
  - exact (gY_form q f x).
  - cbn [unit_of]. ring.
Qed.
Lemma flip_lxor x y q : N.lxor (flipb x q) y = flipb (N.lxor x y) q.
Proof. unfold flipb. now rewrite !N.lxor_assoc, (N.lxor_comm (pw2 q) y). Qed.
Lemma flip_flip x q : flipb (flipb x q) q = x.
Proof. unfold flipb. apply lxor2. Qed.
Lemma par_flip v x q : q < w -> par v (flipb x (rho q)) = xorb (par v x) (bit v q).
Proof. intros Hq. unfold flipb. rewrite par_lxor, (par_pw2_r w rho inj) by exact Hq. reflexivity. Qed.
Lemma par_zl v x q : q < w -> par (N.lxor v (pw2 q)) x = xorb (par v x) (bit x (rho q)).
Proof. intros Hq. rewrite par_lxor_l, par_pw2_l by exact Hq. reflexivity. Qed.
Lemma D_flip u x q : q < w -> N.lxor x (D (N.lxor u (pw2 q))) = flipb (N.lxor x (D u)) (rho q).
Proof. intros Hq. rewrite D_lxor, D_pw2 by exact Hq. unfold flipb. now rewrite N.lxor_assoc. Qed.
Lemma bd_upd u q b : q < w -> (forall i, w <= i -> bit u i = false) -> forall i, w <= i -> bit (upd u q b) i = false.
Proof. intros Hq Hu i Hi. rewrite bit_upd. destruct (Nat.eqb_spec q i); [lia|now apply Hu]. Qed.
Lemma bd_x u q : q < w -> (forall i, w <= i -> bit u i = false) -> forall i, w <= i -> bit (N.lxor u (pw2 q)) i = false.
Proof. intros Hq Hu i Hi. rewrite bit_lxor, bit_pw2, Hu by exact Hi. destruct (Nat.eqb_spec q i); [lia|reflexivity]. Qed.
(** how an equation of the state moves through a gate: y is the image of x *)
Lemma cj_ok g ctl q t t' f : q < w -> forallb (fun p => fst p <? w) ctl = true -> cj g ctl q t = Some t' -> fixesT f t ->
  fixesT (gate g (map (fun p => (rho (fst p), snd p)) ctl) (rho q) f) t'.
Proof.
  intros Hq Hc Hj Hf. destruct t as [[b u] v]. destruct Hf as [Hu Hf].
  assert (F : forall x, f x = sg b * (sg (par v (N.lxor x (D u))) * f (N.lxor x (D u)))) by (intros x; rewrite <- (Hf x) at 1; reflexivity). clear Hf.
  destruct ctl as [|[c d] [|]]; cbn [map fst snd] in *.
  - destruct g; try discriminate; injection Hj as <-.
    + split; [exact Hu|]. intros x. unfold EccSim.pact. cbn [fst snd]. rewrite !gX_form. rewrite (F (flipb x (rho q))), flip_lxor, par_flip, !sg_xor by exact Hq. ring.
    + split; [exact Hu|]. intros x. unfold EccSim.pact. cbn [fst snd]. rewrite !gY_form. rewrite (F (flipb x (rho q))), flip_lxor, par_flip, bitD by exact Hq.
      destruct (bit x (rho q)), (bit u q), (bit v q), b, (par v (N.lxor x (D u))); cbn [xorb negb sg]; ring.
    + split; [exact Hu|]. intros x. unfold EccSim.pact. cbn [fst snd]. rewrite !gZ_form. rewrite (F x), bitD by exact Hq.
      destruct (bit x (rho q)), (bit u q), b, (par v (N.lxor x (D u))); cbn [xorb sg]; ring.
    + split; [now apply bd_upd|]. intros x. unfold EccSim.pact. cbn [fst snd]. rewrite !gH_form.
      assert (Eu : N.lxor x (D (upd u q (bit v q))) = if xorb (bit u q) (bit v q) then flipb (N.lxor x (D u)) (rho q) else N.lxor x (D u)).
      { destruct (bit u q) eqn:E1, (bit v q) eqn:E2; cbn [xorb].
        - rewrite <- E1. now rewrite upd_same.
        - replace (upd u q false) with (flipb u q) by (rewrite <- upd_flip, E1; reflexivity). now apply D_flip.
        - replace (upd u q true) with (flipb u q) by (rewrite <- upd_flip, E1; reflexivity). now apply D_flip.
        - rewrite <- E1. now rewrite upd_same. }
      assert (Ev : forall z, par (upd v q (bit u q)) z = if xorb (bit u q) (bit v q) then xorb (par v z) (bit z (rho q)) else par v z).
      { intros z. destruct (bit u q) eqn:E1, (bit v q) eqn:E2; cbn [xorb].
        - rewrite <- E2. now rewrite upd_same.
        - replace (upd v q true) with (flipb v q) by (rewrite <- upd_flip, E2; reflexivity). now apply par_zl.
        - replace (upd v q false) with (flipb v q) by (rewrite <- upd_flip, E2; reflexivity). now apply par_zl.
        - rewrite <- E2. now rewrite upd_same. }
      rewrite Eu, Ev. rewrite (F x), (F (flipb x (rho q))), flip_lxor, par_flip by exact Hq.
      pose proof (bitD u x q Hq) as Eb. set (y := N.lxor x (D u)) in *. 
      destruct (bit u q) eqn:E1, (bit v q) eqn:E2; cbn [xorb andb] in *; rewrite ?flip_flip, ?par_flip, ?bit_flipb, ?Nat.eqb_refl, ?E2 by exact Hq; rewrite Eb;
        destruct (bit x (rho q)), b, (par v y); cbn [xorb sg]; ring.
  - cbn [forallb fst] in Hc. rewrite andb_true_r in Hc. apply Nat.ltb_lt in Hc. destruct g; try (destruct d; discriminate).
    + destruct d; [|discriminate]. unfold cj in Hj. destruct (Nat.eqb_spec c q) as [|Hn]; [discriminate|]. injection Hj as <-. split; [destruct (bit u c); [now apply bd_x|exact Hu]|].
      intros x. unfold EccSim.pact. cbn [fst snd]. rewrite !gCX_form.
      assert (Hr : rho q <> rho c) by (intros E; apply Hn; symmetry; apply inj; auto).
      assert (Eu : N.lxor x (D (if bit u c then N.lxor u (pw2 q) else u)) = if bit u c then flipb (N.lxor x (D u)) (rho q) else N.lxor x (D u)) by (destruct (bit u c); [now apply D_flip|reflexivity]).
      assert (Ev : forall z, par (if bit v q then N.lxor v (pw2 c) else v) z = xorb (par v z) (bit v q && bit z (rho c))) by (intros z; destruct (bit v q); [now apply par_zl|symmetry; apply xorb_false_r]).
      rewrite Eu, Ev. pose proof (bitD u x c Hc) as Eb. rewrite (F (if bit x (rho c) then flipb x (rho q) else x)). set (y := N.lxor x (D u)) in *.
      assert (Ez : N.lxor (if bit x (rho c) then flipb x (rho q) else x) (D u) = if bit x (rho c) then flipb y (rho q) else y) by (destruct (bit x (rho c)); [apply flip_lxor|reflexivity]).
      rewrite Ez. destruct (bit u c), (bit x (rho c)); cbn [xorb] in Eb; rewrite ?bit_flipb, ?(proj2 (Nat.eqb_neq _ _) Hr), ?Eb; cbn [xorb]; rewrite ?flip_flip, ?par_flip by exact Hq;
        destruct (bit v q), b, (par v y); cbn [xorb andb sg]; ring.
    + destruct d; [|discriminate]. unfold cj in Hj. destruct (Nat.eqb_spec c q) as [|Hn]; [discriminate|]. cbn [orb] in Hj. destruct (bit u c) eqn:Euc; [discriminate|]. injection Hj as <-. split; [exact Hu|].
      intros x. unfold EccSim.pact. cbn [fst snd]. rewrite !gCY_form.
      assert (Ev : forall z, par (if xorb (bit u q) (bit v q) then N.lxor v (pw2 c) else v) z = xorb (par v z) (xorb (bit u q) (bit v q) && bit z (rho c))) by (intros z; destruct (xorb (bit u q) (bit v q)); [now apply par_zl|symmetry; apply xorb_false_r]).
      rewrite Ev. pose proof (bitD u x c Hc) as Ec. pose proof (bitD u x q Hq) as Eq. rewrite Euc, xorb_false_r in Ec. rewrite Ec, Eq.
      destruct (bit x (rho c)).
      * rewrite (F (flipb x (rho q))), flip_lxor, par_flip by exact Hq. destruct (bit u q), (bit v q), (bit x (rho q)), b, (par v (N.lxor x (D u))); cbn [xorb andb negb sg]; ring.
      * rewrite (F x). destruct (bit u q), (bit v q), b, (par v (N.lxor x (D u))); cbn [xorb andb negb sg]; ring.
    + destruct d; [|discriminate]. unfold cj in Hj. destruct (Nat.eqb_spec c q) as [|Hn]; [discriminate|]. injection Hj as <-. split; [exact Hu|].
      intros x. unfold EccSim.pact. cbn [fst snd]. rewrite !gCZ_form, (F x).
      assert (Ev : forall z, par (N.lxor (if bit u q then N.lxor v (pw2 c) else v) (if bit u c then pw2 q else 0%N)) z = xorb (par v z) (xorb (bit u q && bit z (rho c)) (bit u c && bit z (rho q)))).
      { intros z. rewrite par_lxor_l. replace (par (if bit u c then pw2 q else 0%N) z) with (bit u c && bit z (rho q)) by (destruct (bit u c); [symmetry; now apply par_pw2_l|symmetry; apply par_0]).
        destruct (bit u q); [rewrite par_zl by exact Hc|]; destruct (par v z), (bit z (rho c)), (bit u c), (bit z (rho q)); reflexivity. }
      rewrite Ev. pose proof (bitD u x c Hc) as Ec. pose proof (bitD u x q Hq) as Eq. set (y := N.lxor x (D u)) in *. rewrite Ec, Eq.
      destruct (bit u c), (bit u q), (bit x (rho c)), (bit x (rho q)), b, (par v y); cbn [xorb andb sg]; ring.
  - destruct d, g; discriminate.
Qed.
Lemma mapO_ok {A B} (f : A -> option B) (P : A -> Prop) (Q : B -> Prop) l : (forall a b, f a = Some b -> P a -> Q b) -> Forall P l -> Forall Q (mapO f l).
Proof. intros Hf. induction 1 as [|a l Ha _ IHl]; cbn [mapO]; [constructor|]. destruct (f a) as [b|] eqn:Ea; [|exact IHl]. constructor; eauto. Qed.
Lemma tGate_ok g ctl q ts ts' f : tGate w g ctl q ts = Some ts' -> Forall (fixesT f) ts -> Forall (fixesT (gate g (map (fun p => (rho (fst p), snd p)) ctl) (rho q) f)) ts'.
Proof.
  unfold tGate. destruct ((q <? w) && forallb (fun p => fst p <? w) ctl) eqn:E; [|discriminate]. apply andb_true_iff in E. destruct E as [Hq Hc]. apply Nat.ltb_lt in Hq.
  intros Es. injection Es as <-. apply mapO_ok. intros t t' Ht. now apply cj_ok with (t := t).
Qed.
(** measurements *)
Lemma split1_ok q ts f : Forall (fixesT f) ts ->
  match fst (split1 q ts) with Some t => fixesT f t /\ bit (snd (fst t)) q = true | None => True end /\ Forall (fixesT f) (snd (split1 q ts)) /\ Forall (fun t => bit (snd (fst t)) q = false) (snd (split1 q ts)).
Proof.
  induction 1 as [|t ts Ht _ IHt]; [repeat constructor|]. cbn [split1]. destruct (split1 q ts) as [p r]. cbn [fst snd] in IHt. destruct IHt as [I1 [I2 I3]].
  destruct (bit (snd (fst t)) q) eqn:Et.
  - destruct p as [t0|]; cbn [fst snd].
    + destruct I1 as [I0 I1]. split; [auto|]. split; constructor; auto.
      * now apply tmul_ok.
      * destruct t0 as [[b0 u0] v0], t as [[b1 u1] v1]. cbn [fst snd tmul] in *. now rewrite bit_lxor, I1, Et.
    + auto.
  - cbn [fst snd]. split; [exact I1|]. split; constructor; auto.
Qed.
Lemma project_ok q b f t : q < w -> bit (snd (fst t)) q = false -> fixesT f t -> fixesT (project (rho q) b f) t.
Proof.
  intros Hq Hb. destruct t as [[s u] v]. cbn [fst snd] in Hb. intros [Hu Hf]. split; [exact Hu|]. intros x. unfold EccSim.pact, project. cbn [fst snd]. rewrite bitD, Hb, xorb_false_r by exact Hq.
  destruct (Bool.eqb (bit x (rho q)) b); [exact (Hf x)|]. now rewrite !amul_0_r.
Qed.
Lemma project_Z q b f : q < w -> fixesT (project (rho q) b f) (b, 0%N, pw2 q).
Proof.
  intros Hq. split; [intros i _; apply bit_0|]. intros x. unfold EccSim.pact, project. cbn [fst snd]. rewrite D_0, N.lxor_0_r, par_pw2_l by exact Hq.
  destruct (bit x (rho q)), b; cbn [Bool.eqb sg]; rewrite ?amul_0_r; ring.
Qed.
Lemma tMeas_ok q b f ts : q < w -> Forall (fixesT f) ts -> Forall (fixesT (project (rho q) b f)) (tMeas q b ts).
Proof.
  intros Hq Hf. destruct (split1_ok q ts f Hf) as [_ [H1 H2]]. unfold tMeas. apply Forall_app. split; [|constructor; [now apply project_Z|constructor]].
  rewrite Forall_forall in *. intros t Ht. apply project_ok; auto.
Qed.
Lemma decided_ok ts f b u v s : Forall (fixesT f) ts -> (forall i, w <= i -> bit u i = false) -> decided (ech ts) (b, u, v) = Some s -> forall x, sg b * pact (u, v) f x = sg s * f x.
Proof.
  intros Hf Hu Hd x. pose proof (ech_ok w rho inj f ts Hf) as Hg. pose proof (red_ok w rho inj f (ech ts) Hg (sg b, (u, v)) x) as Hr. unfold decided in Hd.
  pose proof (red_sg w rho f (ech ts) Hg (sg b, (u, v)) (ex_intro _ b eq_refl) Hu) as [[b' Hb] _]. 
  destruct (fold_left redT (ech ts) (sg b, (u, v))) as [c [u' v']]. cbn [fst snd] in *. destruct (N.eqb u' 0 && N.eqb v' 0)%bool eqn:E; [|discriminate]. apply andb_true_iff in E. destruct E as [E1 E2]. apply N.eqb_eq in E1, E2. subst u' v'.
  rewrite pact_0 in Hr. rewrite <- Hr. injection Hd as <-. f_equal. subst c. destruct b'; reflexivity.
Qed.
Lemma impossible_ok q b ts f : q < w -> Forall (fixesT f) ts -> impossible q b ts = true -> project (rho q) b f == zero.
Proof.
  intros Hq Hf Hi x. unfold impossible in Hi. destruct (fst (split1 q ts)); [discriminate|]. destruct (decided (ech ts) (b, 0%N, pw2 q)) as [[|]|] eqn:E; try discriminate.
  pose proof (decided_ok ts f b 0%N (pw2 q) true Hf (fun i _ => bit_0 i) E x) as G. unfold EccSim.pact in G. cbn [fst snd] in G. rewrite D_0, N.lxor_0_r, par_pw2_l in G by exact Hq.
  unfold project, zero. destruct (Bool.eqb (bit x (rho q)) b) eqn:Eb; [|reflexivity]. apply Bool.eqb_prop in Eb. rewrite Eb in G. apply cancel2. rewrite amul_0_r.
  transitivity (f x - (aopp aone * f x)); [ring|]. cbn [sg] in G. rewrite <- G. destruct b; cbn [sg]; ring.
Qed.
Definition trel (s : tst) (c : conf) : Prop := Forall (fixesT (st c)) (tts s) /\ forall j, bit (tm s) j = true -> bit (creg c) (off + j)%nat = bit (tc s) j.
Lemma reset_project q b f : resetTo q b f == (if b then gate GX [] q (project q true f) else project q false f).
Proof.
  intros x. unfold resetTo. destruct b.
  - rewrite gX_form. unfold project. rewrite bit_flipb, Nat.eqb_refl, xorb_true_r. destruct (bit x q) eqn:E; [reflexivity|]. cbn [negb Bool.eqb]. now rewrite <- upd_flip, E.
  - unfold project. destruct (bit x q) eqn:E; [reflexivity|]. cbn [Bool.eqb]. now rewrite <- E, upd_same.
Qed.
Lemma tvalue_ok s c lo wd : trel s c -> known (tm s) lo wd = true -> value (creg c) (off + lo)%nat wd = value (tc s) lo wd.
Proof.
  intros [_ Hk] Hn. unfold known in Hn. rewrite forallb_forall in Hn. unfold value. apply N.bits_inj. intros p. rewrite <- !N.land_ones.
  rewrite !N.land_spec. destruct (N.ltb_spec p (N.of_nat wd)) as [Hp|Hp].
  - rewrite !N.ones_spec_low, !andb_true_r by lia. rewrite !N.shiftr_spec by lia. specialize (Hk (lo + N.to_nat p)%nat). unfold bit in Hk.
    replace (N.of_nat (off + (lo + N.to_nat p))) with (p + N.of_nat (off + lo))%N in Hk by lia. replace (N.of_nat (lo + N.to_nat p)) with (p + N.of_nat lo)%N in Hk by lia. apply Hk.
    specialize (Hn (lo + N.to_nat p)%nat). unfold bit in Hn. replace (N.of_nat (lo + N.to_nat p)) with (p + N.of_nat lo)%N in Hn by lia. apply Hn. apply in_seq. lia.
  - rewrite !N.ones_spec_high, !andb_false_r by lia. reflexivity.
Qed.
Lemma tOp_ok o b s s' c : tOp w o b s = Some s' -> trel s c -> (isRand o = true -> hd false (outs c) = b) -> trel s' (step c (ren rho off o)).
Proof.
  intros Ho Hr Hb. destruct o as [g ctl t|p q|q|q k|g t lo wd v]; cbn [tOp ren step] in *.
  - destruct (tGate w g ctl t (tts s)) as [ts|] eqn:E; [|discriminate]. injection Ho as <-. split; [|exact (proj2 Hr)]. cbn [st tts]. exact (tGate_ok g ctl t (tts s) ts _ E (proj1 Hr)).
  - discriminate.
  - rewrite (Hb eq_refl). destruct (Nat.ltb_spec q w) as [Hq|]; [|discriminate]. destruct b.
    + destruct (tGate w GX [] q (tMeas q true (tts s))) as [ts|] eqn:E; [|discriminate]. injection Ho as <-. split; [|exact (proj2 Hr)]. cbn [st tts].
      pose proof (tGate_ok GX [] q _ ts _ E (tMeas_ok q true (st c) (tts s) Hq (proj1 Hr))) as G. apply Forall_forall. rewrite Forall_forall in G. intros t Ht.
      apply (fixesT_ext _ _ t (fun x => eq_sym (reset_project (rho q) true (st c) x))). now apply G.
    + injection Ho as <-. split; [|exact (proj2 Hr)]. cbn [st tts]. pose proof (tMeas_ok q false (st c) (tts s) Hq (proj1 Hr)) as G. apply Forall_forall. rewrite Forall_forall in G. intros t Ht.
      apply (fixesT_ext _ _ t (fun x => eq_sym (reset_project (rho q) false (st c) x))). now apply G.
  - rewrite (Hb eq_refl). destruct (Nat.ltb_spec q w) as [Hq|]; [|discriminate]. injection Ho as <-. split; cbn [st tts creg tc tm].
    + apply tMeas_ok; [exact Hq|exact (proj1 Hr)].
    + intros j Hj. change (bit (upd (tm s) k true) j = true) in Hj. revert Hj. rewrite !bit_upd. replace (off + k =? off + j) with (k =? j) by (destruct (Nat.eqb_spec k j), (Nat.eqb_spec (off + k) (off + j)); lia). destruct (k =? j); [reflexivity|exact (proj2 Hr j)].
  - destruct (known (tm s) lo wd) eqn:Ek; [|discriminate]. rewrite (tvalue_ok s c lo wd Hr Ek). destruct (N.eqb (value (tc s) lo wd) (N.of_nat v)).
    + destruct (tGate w g [] t (tts s)) as [ts|] eqn:E; [|discriminate]. injection Ho as <-. split; [|exact (proj2 Hr)]. cbn [st tts]. exact (tGate_ok g [] t (tts s) ts _ E (proj1 Hr)).
    + injection Ho as <-. split; [exact (proj1 Hr)|exact (proj2 Hr)].
Qed.
Definition goalT (t : trip) : Prop := forall i, w <= i -> bit (snd (fst t)) i = false.
Theorem tchk_sound goal : Forall goalT goal -> forall os s c, tchk w goal os s = true -> trel s c -> Forall (fixesT (st (run (map (ren rho off) os) c))) goal.
Proof.
  intros Hgo. induction os as [|o os IHo]; intros s c Hc Hr.
  - cbn [tchk map run fold_left] in *. rewrite forallb_forall in Hc. rewrite Forall_forall in *. intros [[b u] v] Ht. specialize (Hc _ Ht). specialize (Hgo _ Ht).
    destruct (decided (ech (tts s)) (b, u, v)) as [[|]|] eqn:E; try discriminate. split; [exact Hgo|]. intros x.
    rewrite (decided_ok (tts s) (st c) b u v false (proj1 Hr) Hgo E x). cbn [sg]. ring.
  - cbn [tchk] in Hc. change (run (map (ren rho off) (o :: os)) c) with (run (map (ren rho off) os) (step c (ren rho off o))).
    assert (Go : forall b, (isRand o = true -> hd false (outs c) = b) -> match tOp w o b s with Some s' => tchk w goal os s' | None => false end = true -> Forall (fixesT (st (run (map (ren rho off) os) (step c (ren rho off o))))) goal).
    { intros b Hb Hg. destruct (tOp w o b s) as [s'|] eqn:E; [|discriminate]. apply (IHo s'); [exact Hg|]. now apply (tOp_ok o b s s' c). }
    assert (Dead : forall q b, measured o = Some q -> hd false (outs c) = b -> (q <? w) && impossible q b (tts s) = true -> Forall (fixesT (st (run (map (ren rho off) os) (step c (ren rho off o))))) goal).
    { intros q b Hm Hb Hi. apply andb_true_iff in Hi. destruct Hi as [Hq Hi]. apply Nat.ltb_lt in Hq. pose proof (impossible_ok q b (tts s) (st c) Hq (proj1 Hr) Hi) as Hz.
      assert (Hz' : st (step c (ren rho off o)) == zero).
      { destruct o; try discriminate Hm; injection Hm as <-; cbn [ren step st]; rewrite Hb; [|exact Hz]. intros x. rewrite reset_project. destruct b; [|exact (Hz x)]. rewrite gX_form. exact (Hz _). }
      assert (Hf : st (run (map (ren rho off) os) (step c (ren rho off o))) == zero).
      { destruct (step c (ren rho off o)) as [cr rec f]. now apply run_zero. }
      apply Forall_forall. rewrite Forall_forall in Hgo. intros [[b' u] v] Ht. split; [exact (Hgo _ Ht)|]. intros x. unfold EccSim.pact. cbn [fst snd]. rewrite !Hf. unfold zero. now rewrite !amul_0_r. }
    destruct (measured o) as [q|] eqn:Em.
    + apply andb_true_iff in Hc. destruct Hc as [H0 H1]. destruct (hd false (outs c)) eqn:Eh.
      * destruct ((q <? w) && impossible q true (tts s)) eqn:E1; [exact (Dead q true eq_refl eq_refl E1)|exact (Go true (fun _ => eq_refl) H1)].
      * destruct ((q <? w) && impossible q false (tts s)) eqn:E0; [exact (Dead q false eq_refl eq_refl E0)|exact (Go false (fun _ => eq_refl) H0)].
    + apply (Go false); [|exact Hc]. destruct o; discriminate.
Qed.
(** words *)
Lemma wordT_form l t f : wordT w l = Some t -> goalT t /\ (fixesT f t <-> after (word rho l) f == f).
Proof.
  intros Ht. assert (G : goalT t /\ forall x, after (word rho l) f x = sg (fst (fst t)) * pact (snd (fst t), snd t) f x).
  { unfold wordT in Ht. destruct (simR w [] (word (fun j => j) l) [] init) as [s|] eqn:E; [|discriminate]. destruct s as [a b k x]. cbn [sk ss] in Ht.
    destruct k; [|discriminate]. destruct x as [|[c [u v]] [|]]; try discriminate. destruct (N.eqb (N.shiftr u (N.of_nat w)) 0) eqn:Eu; [|discriminate]. cbn [negb] in Ht.
    apply N.eqb_eq in Eu. assert (Hu : forall i, w <= i -> bit u i = false).
    { intros i Hi. unfold bit. replace (N.of_nat i) with (N.of_nat (i - w) + N.of_nat w)%N by lia. rewrite <- N.shiftr_spec by apply N.le_0_l. rewrite Eu. apply N.bits_0. }
    pose proof (simR_ok w rho inj off f [] (Forall_nil _) _ _ _ (mkConf 0 [] f) E (rel_init w rho off f (mkConf 0 [] f) (fun x => eq_refl))) as [Hr _]. rewrite ren_word in Hr.
    assert (G : forall x, after (word rho l) f x = c * pact (u, v) f x).
    { intros x. assert (Hx : two 0 * after (word rho l) f x = den w rho f [(c, (u, v))] x) by exact (Hr x). rewrite den_cons, den_nil, two_0 in Hx. cbn [fst snd] in Hx.
      transitivity (aone * after (word rho l) f x); [ring|]. rewrite Hx. ring. }
    destruct (aeqb c aone) eqn:E1; [|destruct (aeqb c (aopp aone)) eqn:E2; [|discriminate]]; injection Ht as <-; (split; [exact Hu|]); intros x; rewrite G; cbn [fst snd sg]; f_equal.
    - now apply aeqb_eq.
    - now apply aeqb_eq. }
  destruct G as [Hg G]. split; [exact Hg|]. destruct t as [[b u] v]. cbn [fst snd] in *. split.
  - intros [_ Hf] x. now rewrite G, Hf.
  - intros Hf. split; [exact Hg|]. intros x. rewrite <- G. apply Hf.
Qed.
Lemma wordsT_form words ts : wordsT w words = Some ts -> Forall goalT ts /\ forall f, (Forall (fixesT f) ts <-> forall l, In l words -> after (word rho l) f == f).
Proof.
  revert ts. induction words as [|l words IHw]; intros ts E; cbn [wordsT] in E; [injection E as <-; split; [constructor|]; intros f; split; [intros _ l []|constructor]|].
  destruct (wordT w l) as [t|] eqn:E1; [|discriminate]. destruct (wordsT w words) as [r|]; [|discriminate]. injection E as <-. destruct (IHw r eq_refl) as [I1 I2]. split.
  - constructor; [exact (proj1 (wordT_form l t zero E1))|exact I1].
  - intros f. destruct (wordT_form l t f E1) as [_ G]. split.
    + intros HF. inversion HF; subst. intros l' [<-|Hl]; [now apply G|]. now apply I2.
    + intros Hf. constructor; [apply G, Hf; now left|]. apply I2. intros l' Hl. apply Hf. now right.
Qed.
Theorem tabEnds_sound f0 words words' os : tabEnds w words words' os = true -> (forall l, In l words -> after (word rho l) f0 == f0) -> forall cr rec l, In l words' ->
  after (word rho l) (st (run (map (ren rho off) os) (mkConf cr rec f0))) == st (run (map (ren rho off) os) (mkConf cr rec f0)).
Proof.
  unfold tabEnds. destruct (wordsT w words) as [ts|] eqn:E1; [|discriminate]. destruct (wordsT w words') as [goal|] eqn:E2; [|discriminate]. intros Hc Hf cr rec.
  destruct (wordsT_form words ts E1) as [_ F1]. destruct (wordsT_form words' goal E2) as [G2 F2]. apply F2. apply (tchk_sound goal G2 os (mkT 0 0 ts)); [exact Hc|]. split; cbn [st tts tm]; [now apply F1|].
  intros j Hj. rewrite bit_0 in Hj. discriminate.
Qed.
End Tab.
(** either check *)
Definition ends (w : nat) (words words' : list (list (gt * nat))) (os : list op) : bool := if tabEnds w words words' os then true else endsIn w words words' os.
Theorem ends_sound w rho : (forall i j, i < w -> j < w -> rho i = rho j -> i = j) -> forall off f0 words, (forall l, In l words -> after (word rho l) f0 == f0) ->
  forall words' os, ends w words words' os = true -> forall cr rec l, In l words' ->
  after (word rho l) (st (run (map (ren rho off) os) (mkConf cr rec f0))) == st (run (map (ren rho off) os) (mkConf cr rec f0)).
Proof.
  intros inj off f0 words Hf words' os He cr rec l Hl. unfold ends in He. destruct (tabEnds w words words' os) eqn:Et.
  - now apply (tabEnds_sound w rho inj off f0 words words').
  - now apply (endsIn_sound w rho inj off f0 words Hf words').
Qed.
