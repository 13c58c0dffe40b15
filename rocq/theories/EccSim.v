(** * EccSim: an exact simulator of circuits by sums of Pauli operators modulo stabilizers, and its soundness

    Every operation of a circuit (with the outcome of a reset or measurement fixed) is, up to a power of two, a sum of Pauli operators; applied to a
    state that is known to be fixed by some Pauli operators, equal terms modulo these can be collected.  The simulator works on the qubits of a
    template (numbers below [w]) and on a few of its classical bits; [rho] places the template in a circuit of any size. *)
From Coq Require Import NArith ZArith Ring Permutation.
From Verif Require Export EccSem.
Local Open Scope amp_scope.

Lemma Neqb_nat i j : N.eqb (N.of_nat i) (N.of_nat j) = Nat.eqb i j.
Proof. destruct (Nat.eqb_spec i j) as [->|E]; [apply N.eqb_refl|]. apply N.eqb_neq. intros H. apply E. now apply Nat2N.inj. Qed.
Definition pw2 (q : nat) : N := N.setbit 0 (N.of_nat q).
Lemma bit_pw2 q p : bit (pw2 q) p = Nat.eqb q p.
Proof. unfold bit, pw2. rewrite N.setbit_eqb, N.bits_0, orb_false_r. apply Neqb_nat. Qed.
Lemma bit_lxor x y q : bit (N.lxor x y) q = xorb (bit x q) (bit y q).
Proof. apply N.lxor_spec. Qed.
Lemma bit_ext x y : (forall q, bit x q = bit y q) -> x = y.
Proof. intros H. apply N.bits_inj. intros n. specialize (H (N.to_nat n)). unfold bit in H. now rewrite N2Nat.id in H. Qed.
Lemma bit_upd x q b p : bit (upd x q b) p = if Nat.eqb q p then b else bit x p.
Proof.
  unfold bit, upd. destruct b.
  - rewrite N.setbit_eqb, Neqb_nat. now destruct (Nat.eqb q p).
  - rewrite N.clearbit_eqb, Neqb_nat. destruct (Nat.eqb q p); simpl; [apply andb_false_r|apply andb_true_r].
Qed.
Lemma bit_0 q : bit 0 q = false. Proof. apply N.bits_0. Qed.
Definition flipb (x : N) (q : nat) : N := N.lxor x (pw2 q).
Lemma bit_flipb x q p : bit (flipb x q) p = xorb (bit x p) (Nat.eqb q p).
Proof. unfold flipb. now rewrite bit_lxor, bit_pw2. Qed.
Lemma upd_same x q : upd x q (bit x q) = x.
Proof. apply bit_ext. intros p. rewrite bit_upd. destruct (Nat.eqb_spec q p); congruence. Qed.
Lemma upd_flip x q : upd x q (negb (bit x q)) = flipb x q.
Proof. apply bit_ext. intros p. rewrite bit_upd, bit_flipb. destruct (Nat.eqb_spec q p) as [->|]; now destruct (bit x p). Qed.

Lemma amul_0_r a : a * azero = azero. Proof. destruct a. unfold amul, azero. f_equal; ring. Qed.
Lemma amul_0_l a : azero * a = azero. Proof. destruct a. unfold amul, azero. f_equal; ring. Qed.
Lemma amul_1_l a : aone * a = a. Proof. ring. Qed.
Definition sg (b : bool) : amp := if b then aopp aone else aone.
Lemma sg_xor a b : sg (xorb a b) = sg a * sg b. Proof. destruct a, b; reflexivity. Qed.
Definition two (k : nat) : amp := Am (2 ^ Z.of_nat k) 0 0 0.
Lemma two_S k : two (S k) = (aone + aone) * two k.
Proof. unfold two. rewrite Nat2Z.inj_succ, Z.pow_succ_r by lia. unfold aone, aadd, amul. f_equal; ring. Qed.
Lemma two_0 : two 0 = aone. Proof. reflexivity. Qed.
Lemma two_add a b : two (a + b) = two a * two b.
Proof. induction a; simpl Nat.add; [rewrite two_0; ring|]. rewrite !two_S, IHa. ring. Qed.
Lemma cancel2 x y : (aone + aone) * x = (aone + aone) * y -> x = y.
Proof. destruct x as [a b c d], y as [a' b' c' d']. unfold aone, aadd, amul. intros H.
  assert (H1 := f_equal (fun z => let '(Am a _ _ _) := z in a) H). assert (H2 := f_equal (fun z => let '(Am _ a _ _) := z in a) H).
  assert (H3 := f_equal (fun z => let '(Am _ _ a _) := z in a) H). assert (H4 := f_equal (fun z => let '(Am _ _ _ a) := z in a) H).
  cbv beta iota in *. f_equal; lia.
Qed.
Lemma cancel_two k x y : two k * x = two k * y -> x = y.
Proof.
  induction k; [rewrite two_0; intros H; replace x with (aone * x) by ring; replace y with (aone * y) by ring; exact H|].
  rewrite two_S. intros H. apply IHk, cancel2. replace ((aone + aone) * (two k * x)) with ((aone + aone) * two k * x) by ring. rewrite H. ring.
Qed.

(** ** Pauli operators on states *)
Definition Xop (q : nat) (f : state) : state := fun x => f (flipb x q).
Definition Zop (q : nat) (f : state) : state := fun x => sg (bit x q) * f x.
Lemma u2_form m q f x :
  (aone + aone) * u2 m q f x =
  (let '(m00, m01, m10, m11) := m in (m00 + m11) * f x + (m01 + m10) * Xop q f x + (m10 - m01) * Xop q (Zop q f) x + (m00 - m11) * Zop q f x).
Proof.
  destruct m as [[[m00 m01] m10] m11]. unfold u2, Xop, Zop. rewrite bit_flipb, Nat.eqb_refl. pose proof (upd_same x q) as E1. pose proof (upd_flip x q) as E2.
  destruct (bit x q); cbn [negb xorb sg] in *; rewrite E1, E2; ring.
Qed.
(** 2 U = a + b X + c X Z + d Z *)
Definition pexp (g : gt) : amp * amp * amp * amp :=
  let '(m00, m01, m10, m11) := mat g in (m00 + m11, m01 + m10, m10 - m01, m00 - m11).
Lemma gate_u2 g t f x :
  (aone + aone) * u2 (mat g) t f x =
  (let '(a, b, c, d) := pexp g in a * f x + b * Xop t f x + c * Xop t (Zop t f) x + d * Zop t f x).
Proof. rewrite u2_form. unfold pexp. destruct (mat g) as [[[m00 m01] m10] m11]. reflexivity. Qed.

(** projections, times two *)
Definition pj (c : nat * bool) (f : state) : state := fun x => f x + sg (snd c) * Zop (fst c) f x.
Lemma pj_form c f x : pj c f x = (if Bool.eqb (bit x (fst c)) (snd c) then (aone + aone) * f x else azero).
Proof. unfold pj, Zop. destruct c as [q b]; cbn [fst snd]. destruct (bit x q), b; cbn [Bool.eqb sg]; ring. Qed.
Definition pjs (ctl : list (nat * bool)) (f : state) : state := fold_right pj f ctl.
Lemma pjs_form ctl f x : pjs ctl f x = (if active ctl x then two (length ctl) * f x else azero).
Proof.
  induction ctl as [|c ctl IHc]; [cbn [pjs fold_right active forallb length]; rewrite two_0; ring|].
  change (pjs (c :: ctl) f) with (pj c (pjs ctl f)). rewrite pj_form. change (active (c :: ctl) x) with (Bool.eqb (bit x (fst c)) (snd c) && active ctl x).
  destruct (Bool.eqb _ _); cbn [andb]; [|reflexivity]. rewrite IHc. cbn [length]. rewrite two_S. destruct (active ctl x); ring.
Qed.
Lemma gate_ctl g ctl t f x : unit_of g = aone ->
  two (S (length ctl)) * gate g ctl t f x =
  two (S (length ctl)) * f x + pjs ctl (fun x => (aone + aone) * u2 (mat g) t f x - (aone + aone) * f x) x.
Proof. intros E. unfold gate. rewrite pjs_form, E, two_S. destruct (active ctl x); ring. Qed.

(** parity of the number of ones *)
Fixpoint popP (p : positive) : bool := match p with xH => true | xO p => popP p | xI p => negb (popP p) end.
Definition pop (n : N) : bool := match n with N0 => false | Npos p => popP p end.
Definition xors (l : list bool) : bool := fold_right xorb false l.
Lemma pop_div2 n : pop n = xorb (N.odd n) (pop (N.div2 n)).
Proof. destruct n as [|[p|p|]]; simpl; auto; destruct (popP p); reflexivity. Qed.
Lemma pop_xors k : forall n, (forall i, k <= i -> bit n i = false) -> pop n = xors (map (bit n) (seq 0 k)).
Proof.
  induction k as [|k IHk]; intros n Hn.
  - replace n with 0%N; [reflexivity|]. apply bit_ext. intros q. rewrite bit_0. symmetry. apply Hn. lia.
  - rewrite pop_div2, (IHk (N.div2 n)).
    + simpl. rewrite <- seq_shift, map_map. unfold bit at 2. simpl N.of_nat. rewrite <- N.bit0_odd. f_equal. f_equal. apply map_ext. intros i.
      unfold bit. rewrite Nat2N.inj_succ, N.div2_spec, N.shiftr_spec by apply N.le_0_l. f_equal. lia.
    + intros i Hi. specialize (Hn (S i)). unfold bit in *. rewrite N.div2_spec, N.shiftr_spec by apply N.le_0_l.
      rewrite Nat2N.inj_succ in Hn. replace (N.of_nat i + 1)%N with (N.succ (N.of_nat i)) by lia. apply Hn. lia.
Qed.
Lemma xors_xor {A} (f g : A -> bool) l : xors (map (fun i => xorb (f i) (g i)) l) = xorb (xors (map f l)) (xors (map g l)).
Proof. induction l as [|a l IHl]; simpl; auto. rewrite IHl. destruct (f a), (g a), (xors (map f l)), (xors (map g l)); reflexivity. Qed.
Lemma xors_cons a l : xors (a :: l) = xorb a (xors l). Proof. reflexivity. Qed.
Lemma xors_single k q (v : bool) : q < k -> xors (map (fun i => v && Nat.eqb q i) (seq 0 k)) = v.
Proof.
  intros Hq. assert (G : forall s, xors (map (fun i => v && Nat.eqb q i) (seq s k)) = (v && (s <=? q) && (q <? s + k))).
  { clear Hq. induction k as [|k IHk]; intros s; cbn [seq map].
    - destruct v; cbn [andb]; auto. destruct (Nat.leb_spec s q), (Nat.ltb_spec q (s + 0)); try reflexivity; lia.
    - rewrite xors_cons, IHk. destruct v; cbn [andb]; auto.
      destruct (Nat.eqb_spec q s), (Nat.leb_spec (S s) q), (Nat.ltb_spec q (S s + k)), (Nat.leb_spec s q), (Nat.ltb_spec q (s + S k)); try reflexivity; lia. }
  rewrite G. destruct (Nat.ltb_spec q (0 + k)); [|lia]. now destruct v.
Qed.

(** ** Symbolic states *)
Definition term := (amp * (N * N))%type.
Definition sum := list term.
Definition cmpk (a b : N * N) : comparison := match N.compare (fst a) (fst b) with Eq => N.compare (snd a) (snd b) | r => r end.
Lemma cmpk_eq a b : cmpk a b = Eq -> a = b.
Proof.
  unfold cmpk. destruct a as [a1 a2], b as [b1 b2]; simpl. destruct (N.compare_spec a1 b1); try discriminate. subst.
  intros H. apply N.compare_eq in H. congruence.
Qed.
Definition aeqb (x y : amp) : bool :=
  let '(Am a b c d) := x in let '(Am a' b' c' d') := y in (Z.eqb a a' && Z.eqb b b' && Z.eqb c c' && Z.eqb d d')%bool.
Lemma aeqb_eq x y : aeqb x y = true -> x = y.
Proof. destruct x, y; simpl. rewrite !andb_true_iff, !Z.eqb_eq. intros [[[-> ->] ->] ->]. reflexivity. Qed.
Definition cons0 (c : amp) (k : N * N) (l : sum) : sum := if aeqb c azero then l else (c, k) :: l.
Fixpoint merge (l1 : sum) : sum -> sum :=
  match l1 with
  | [] => fun l2 => l2
  | (c1, k1) :: l1' =>
      (fix aux (l2 : sum) : sum :=
         match l2 with
         | [] => l1
         | (c2, k2) :: l2' => match cmpk k1 k2 with
                              | Lt => (c1, k1) :: merge l1' l2
                              | Gt => (c2, k2) :: aux l2'
                              | Eq => cons0 (c1 + c2) k1 (merge l1' l2')
                              end
         end)
  end.
Fixpoint halves (l : sum) : sum * sum := match l with [] => ([], []) | a :: l' => let '(x, y) := halves l' in (a :: y, x) end.
Fixpoint msort (fuel : nat) (l : sum) : sum :=
  match fuel with
  | 0 => l
  | S fuel => match l with [] | [_] => l | _ => let '(a, b) := halves l in merge (msort fuel a) (msort fuel b) end
  end.
Definition sX (q : nat) (s : sum) : sum := map (fun t : term => let '(c, (u, v)) := t in (c, (N.lxor u (pw2 q), v))) s.
Definition sZ (q : nat) (s : sum) : sum := map (fun t : term => let '(c, (u, v)) := t in (sg (bit u q) * c, (u, N.lxor v (pw2 q)))) s.
Definition sScale (a : amp) (s : sum) : sum := if aeqb a azero then [] else map (fun t : term => (a * fst t, snd t)) s.
Definition sPj (s : sum) (c : nat * bool) : sum := s ++ sScale (sg (snd c)) (sZ (fst c) s).
(** generators: sign, X part, Z part, and where the leading one is *)
Record gen := mkGen { g_s : bool; g_u : N; g_v : N; g_x : bool; g_p : N }.
Definition redT (t : term) (g : gen) : term :=
  let '(c, (u, v)) := t in
  if N.testbit (if g_x g then u else v) (g_p g) then (sg (xorb (g_s g) (pop (N.land v (g_u g)))) * c, (N.lxor u (g_u g), N.lxor v (g_v g))) else t.
Definition reduce (gs : list gen) (s : sum) : sum := map (fun t => fold_left redT gs t) s.
Definition evenA (x : amp) : bool := let '(Am a b c d) := x in (Z.even a && Z.even b && Z.even c && Z.even d)%bool.
Definition halfA (x : amp) : amp := let '(Am a b c d) := x in Am (Z.div2 a) (Z.div2 b) (Z.div2 c) (Z.div2 d).
Fixpoint halve (k : nat) (s : sum) : nat * sum :=
  match k with
  | 0 => (0, s)
  | S k' => if forallb (fun t => evenA (fst t)) s then halve k' (map (fun t => (halfA (fst t), snd t)) s) else (k, s)
  end.
Definition norm (gs : list gen) (k : nat) (s : sum) : nat * sum := halve k (msort 24 (reduce gs s)).
(** generators out of signed Pauli operators *)
Definition mkG (t : bool * N * N) : gen :=
  let '(b, u, v) := t in if N.eqb u 0 then mkGen b u v false (N.log2 v) else mkGen b u v true (N.log2 u).
Definition echStep (gs : list gen) (t : bool * N * N) : list gen :=
  let '(b, u, v) := t in
  let '(c, (u, v)) := fold_left redT gs (sg b, (u, v)) in
  gs ++ [mkG (negb (aeqb c aone), u, v)].
Definition ech (l : list (bool * N * N)) : list gen := fold_left echStep l [].

Section Place.
Variable w : nat.
Variable rho : nat -> nat.
Hypothesis inj : forall i j, i < w -> j < w -> rho i = rho j -> i = j.

Definition D (u : N) : N := fold_right (fun j acc => if bit u j then N.lxor (pw2 (rho j)) acc else acc) 0%N (seq 0 w).
Definition par (v x : N) : bool := xors (map (fun j => bit v j && bit x (rho j)) (seq 0 w)).
(** X^u Z^v *)
Definition pact (k : N * N) (f : state) : state := fun x => let y := N.lxor x (D (fst k)) in sg (par (snd k) y) * f y.
Variable f0 : state.
Definition den (s : sum) : state := fun x => fold_right (fun t acc => fst t * pact (snd t) f0 x + acc) azero s.

Lemma par_lxor v x y : par v (N.lxor x y) = xorb (par v x) (par v y).
Proof. unfold par. rewrite <- xors_xor. f_equal. apply map_ext. intros j. rewrite bit_lxor. now destruct (bit v j). Qed.
Lemma par_lxor_l u v x : par (N.lxor u v) x = xorb (par u x) (par v x).
Proof. unfold par. rewrite <- xors_xor. f_equal. apply map_ext. intros j. rewrite bit_lxor. destruct (bit x (rho j)); rewrite ?andb_true_r, ?andb_false_r; reflexivity. Qed.
Lemma D_lxor u v : D (N.lxor u v) = N.lxor (D u) (D v).
Proof.
  unfold D. induction (seq 0 w) as [|j l IHl]; cbn [fold_right]; [reflexivity|]. rewrite bit_lxor, IHl.
  destruct (bit u j), (bit v j); cbn [xorb]; apply bit_ext; intros q; rewrite ?bit_lxor;
    repeat match goal with |- context [bit ?a q] => destruct (bit a q) end; reflexivity.
Qed.
Lemma bit_D u q : q < w -> bit (D u) (rho q) = bit u q.
Proof.
  intros Hq. assert (E : bit (D u) (rho q) = xors (map (fun j => bit u j && Nat.eqb (rho j) (rho q)) (seq 0 w))).
  { unfold D. induction (seq 0 w) as [|j l IHl]; cbn [fold_right map]; [apply bit_0|]. rewrite xors_cons. destruct (bit u j); cbn [andb]; rewrite ?bit_lxor, ?bit_pw2, IHl; auto. now destruct xors. }
  rewrite E. rewrite <- (xors_single w q (bit u q) Hq). f_equal. apply map_ext_in. intros j Hj. apply in_seq in Hj.
  destruct (Nat.eqb_spec q j) as [->|Ej]; [now rewrite Nat.eqb_refl|]. rewrite (proj2 (Nat.eqb_neq _ _)); [now rewrite !andb_false_r|].
  intros Er. apply Ej. symmetry. apply inj; auto; lia.
Qed.
Lemma D_pw2 q : q < w -> D (pw2 q) = pw2 (rho q).
Proof.
  intros Hq. unfold D. assert (G : forall s k, fold_right (fun j acc => if bit (pw2 q) j then N.lxor (pw2 (rho j)) acc else acc) 0%N (seq s k) =
                                       if (s <=? q) && (q <? s + k) then pw2 (rho q) else 0%N).
  { intros s k. revert s. induction k as [|k IHk]; intros s; cbn [seq fold_right].
    - destruct (Nat.leb_spec s q), (Nat.ltb_spec q (s + 0)); try reflexivity; lia.
    - rewrite IHk, bit_pw2.
      destruct (Nat.eqb_spec q s), (Nat.leb_spec (S s) q), (Nat.ltb_spec q (S s + k)), (Nat.leb_spec s q), (Nat.ltb_spec q (s + S k)); cbn [andb]; try reflexivity; try lia.
      subst. apply N.lxor_0_r. }
  rewrite G. destruct (Nat.ltb_spec q (0 + w)); [reflexivity|lia].
Qed.
Lemma par_pw2_r v q : q < w -> par v (pw2 (rho q)) = bit v q.
Proof.
  intros Hq. unfold par. rewrite <- (xors_single w q (bit v q) Hq). f_equal. apply map_ext_in. intros j Hj. apply in_seq in Hj. rewrite bit_pw2.
  destruct (Nat.eqb_spec q j) as [->|Ej]; [now rewrite Nat.eqb_refl|].
  rewrite (proj2 (Nat.eqb_neq (rho q) (rho j))); [now rewrite !andb_false_r|]. intros Er. apply Ej. apply inj; auto; lia.
Qed.
Lemma par_pw2_l q x : q < w -> par (pw2 q) x = bit x (rho q).
Proof.
  intros Hq. unfold par. rewrite <- (xors_single w q (bit x (rho q)) Hq). f_equal. apply map_ext. intros j. rewrite bit_pw2.
  destruct (Nat.eqb_spec q j) as [->|Ej]; [apply andb_comm|]. simpl. now rewrite andb_false_r.
Qed.
Lemma par_D v u : (forall i, w <= i -> bit u i = false) -> par v (D u) = pop (N.land v u).
Proof.
  intros Hu. rewrite (pop_xors w).
  - unfold par. f_equal. apply map_ext_in. intros j Hj. apply in_seq in Hj. rewrite bit_D by lia. unfold bit. now rewrite N.land_spec.
  - intros i Hi. unfold bit in *. rewrite N.land_spec, Hu by auto. apply andb_false_r.
Qed.
Lemma par_0 x : par 0 x = false.
Proof. unfold par. induction (seq 0 w) as [|j l IHl]; [reflexivity|]. cbn [map]. rewrite xors_cons, bit_0, IHl. reflexivity. Qed.
Lemma D_0 : D 0 = 0%N.
Proof. unfold D. induction (seq 0 w) as [|j l IHl]; [reflexivity|]. cbn [fold_right]. rewrite bit_0. exact IHl. Qed.
Lemma pact_0 f x : pact (0, 0)%N f x = f x.
Proof. unfold pact. simpl. rewrite D_0, N.lxor_0_r, par_0. cbn [sg]. ring. Qed.
Lemma pact_X q u v f x : q < w -> Xop (rho q) (pact (u, v) f) x = pact (N.lxor u (pw2 q), v) f x.
Proof. intros Hq. unfold Xop, pact, flipb. simpl. rewrite D_lxor, D_pw2 by auto. rewrite !N.lxor_assoc, (N.lxor_comm (pw2 (rho q))). reflexivity. Qed.
Lemma pact_Z q u v f x : q < w -> Zop (rho q) (pact (u, v) f) x = sg (bit u q) * pact (u, N.lxor v (pw2 q)) f x.
Proof.
  intros Hq. unfold Zop, pact. simpl. rewrite par_lxor_l, par_pw2_l by auto. rewrite bit_lxor, bit_D by auto. rewrite !sg_xor.
  generalize (sg (par v (N.lxor x (D u)))) as p, (f (N.lxor x (D u))) as z. intros. destruct (bit x (rho q)), (bit u q); cbn [xorb sg]; ring.
Qed.
Lemma den_cons t s x : den (t :: s) x = fst t * pact (snd t) f0 x + den s x. Proof. reflexivity. Qed.
Lemma den_nil x : den [] x = azero. Proof. reflexivity. Qed.
Lemma den_app a b x : den (a ++ b) x = den a x + den b x.
Proof. induction a as [|t a IHa]; cbn [app]; [rewrite den_nil; ring|]. rewrite !den_cons, IHa. ring. Qed.
Lemma den_X q s x : q < w -> den (sX q s) x = Xop (rho q) (den s) x.
Proof.
  intros Hq. induction s as [|[c [u v]] s IHs]; [reflexivity|]. change (sX q ((c, (u, v)) :: s)) with ((c, (N.lxor u (pw2 q), v)) :: sX q s).
  rewrite den_cons, IHs. cbn [fst snd]. rewrite <- pact_X by auto. reflexivity.
Qed.
Lemma den_Z q s x : q < w -> den (sZ q s) x = Zop (rho q) (den s) x.
Proof.
  intros Hq. induction s as [|[c [u v]] s IHs]; [unfold Zop; change (sZ q []) with (@nil term); rewrite den_nil; destruct (bit x (rho q)); reflexivity|]. change (sZ q ((c, (u, v)) :: s)) with ((sg (bit u q) * c, (u, N.lxor v (pw2 q))) :: sZ q s).
  rewrite den_cons, IHs. cbn [fst snd].
  pose proof (pact_Z q u v f0 x Hq) as E. unfold Zop in *. rewrite den_cons. cbn [fst snd].
  transitivity (c * (sg (bit u q) * pact (u, N.lxor v (pw2 q)) f0 x) + sg (bit x (rho q)) * den s x); [ring|]. rewrite <- E. ring.
Qed.
Lemma den_scale a s x : den (sScale a s) x = a * den s x.
Proof.
  unfold sScale. destruct (aeqb a azero) eqn:E; [apply aeqb_eq in E; subst; rewrite den_nil; ring|].
  induction s as [|t s IHs]; [cbn [map]; rewrite den_nil; symmetry; apply amul_0_r|]. cbn [map]. rewrite !den_cons, IHs. cbn [fst snd]. ring.
Qed.
Lemma den_Pj s c x : fst c < w -> den (sPj s c) x = pj (rho (fst c), snd c) (den s) x.
Proof. intros Hc. unfold sPj. rewrite den_app, den_scale, den_Z by auto. reflexivity. Qed.
Lemma den_cons0 c k s x : den (cons0 c k s) x = c * pact k f0 x + den s x.
Proof. unfold cons0. destruct (aeqb c azero) eqn:E; [apply aeqb_eq in E; subst; ring|reflexivity]. Qed.
Lemma den_merge l1 : forall l2 x, den (merge l1 l2) x = den l1 x + den l2 x.
Proof.
  induction l1 as [|[c1 k1] l1 IH1]; intros l2 x; [cbn [merge]; rewrite den_nil; ring|].
  induction l2 as [|[c2 k2] l2 IH2]; [cbn [merge]; rewrite den_nil; ring|].
  cbn [merge] in IH2 |- *. destruct (cmpk k1 k2) eqn:E.
  - apply cmpk_eq in E. subst k2. rewrite den_cons0, IH1, !den_cons. cbn [fst snd]. ring.
  - rewrite den_cons, IH1, !den_cons. cbn [fst snd]. ring.
  - rewrite den_cons, IH2, !den_cons. cbn [fst snd]. ring.
Qed.
Lemma den_halves l x : den l x = den (fst (halves l)) x + den (snd (halves l)) x.
Proof. induction l as [|a l IHl]; [cbn [halves fst snd]; rewrite den_nil; ring|]. cbn [halves]. destruct (halves l) as [p q]. cbn [fst snd] in IHl |- *. rewrite !den_cons, IHl. ring. Qed.
Lemma den_msort k : forall l x, den (msort k l) x = den l x.
Proof.
  induction k as [|k IHk]; intros l x; [reflexivity|]. destruct l as [|a [|b l]]; try reflexivity. simpl msort.
  rewrite (den_halves (a :: b :: l)). simpl halves. destruct (halves l) as [p q]. rewrite den_merge, !IHk. reflexivity.
Qed.
(** what the generators must be *)
Definition fixes (g : gen) : Prop := (forall i, w <= i -> bit (g_u g) i = false) /\ forall x, sg (g_s g) * pact (g_u g, g_v g) f0 x = f0 x.
Lemma pact_mul u v u' v' f x : (forall i, w <= i -> bit u' i = false) ->
  pact (u, v) (pact (u', v') f) x = sg (pop (N.land v u')) * pact (N.lxor u u', N.lxor v v') f x.
Proof.
  intros Hu. unfold pact. simpl. rewrite D_lxor, N.lxor_assoc, par_lxor_l, sg_xor.
  set (z := N.lxor x (N.lxor (D u) (D u'))). assert (Ez : N.lxor x (D u) = N.lxor z (D u')).
  { unfold z. apply bit_ext. intros q. rewrite !bit_lxor. destruct (bit x q), (bit (D u) q), (bit (D u') q); reflexivity. }
  rewrite Ez, par_lxor, par_D by auto. rewrite sg_xor. ring.
Qed.
Lemma redT_ok t g x : fixes g -> fst (redT t g) * pact (snd (redT t g)) f0 x = fst t * pact (snd t) f0 x.
Proof.
  intros [Hu Hg]. destruct t as [c [u v]]. unfold redT. destruct (N.testbit _ _); [|reflexivity]. cbn [fst snd].
  assert (E : pact (u, v) f0 x = sg (g_s g) * pact (u, v) (pact (g_u g, g_v g) f0) x).
  { unfold pact at 1 2. cbn [fst snd]. set (y := N.lxor x (D u)). rewrite <- (Hg y) at 1. ring. }
  rewrite E, pact_mul, sg_xor by auto. ring.
Qed.
Lemma red_ok gs : Forall fixes gs -> forall t x, fst (fold_left redT gs t) * pact (snd (fold_left redT gs t)) f0 x = fst t * pact (snd t) f0 x.
Proof. induction 1 as [|g gs Hg _ IHg]; intros t x; [reflexivity|]. simpl. rewrite IHg. now apply redT_ok. Qed.
Lemma den_reduce gs s x : Forall fixes gs -> den (reduce gs s) x = den s x.
Proof. intros Hg. induction s as [|t s IHs]; [reflexivity|]. change (reduce gs (t :: s)) with (fold_left redT gs t :: reduce gs s). rewrite !den_cons. now rewrite IHs, red_ok. Qed.
Lemma half_ok a : evenA a = true -> (aone + aone) * halfA a = a.
Proof.
  destruct a as [a b c d]. unfold evenA, halfA. rewrite !andb_true_iff. intros [[[H1 H2] H3] H4].
  assert (G : forall z, Z.even z = true -> (2 * Z.div2 z)%Z = z). { intros z Hz. apply Z.even_spec in Hz. destruct Hz as [y ->]. rewrite Z.div2_div. pose proof (Z.div_mul y 2). rewrite (Z.mul_comm 2 y), H by lia. lia. }
  unfold aone, aadd, amul. apply G in H1, H2, H3, H4. f_equal; lia.
Qed.
Lemma den_halve_map s x : forallb (fun t => evenA (fst t)) s = true -> (aone + aone) * den (map (fun t : term => (halfA (fst t), snd t)) s) x = den s x.
Proof.
  induction s as [|t s IHs]; [intros _; cbn [map]; rewrite den_nil; apply amul_0_r|]. cbn [map forallb]. rewrite andb_true_iff. intros [H1 H2]. rewrite !den_cons. cbn [fst snd].
  rewrite <- (half_ok _ H1) at 2. rewrite <- IHs by auto. ring.
Qed.
Definition repr (ks : nat * sum) (f : state) : Prop := forall x, two (fst ks) * f x = den (snd ks) x.
Lemma halve_ok k : forall s f, repr (k, s) f -> repr (halve k s) f.
Proof.
  induction k as [|k IHk]; intros s f Hr; [exact Hr|]. cbn [halve]. destruct (forallb (fun t => evenA (fst t)) s) eqn:E; [|exact Hr]. apply IHk. intros x. cbn [fst snd].
  specialize (Hr x). cbn [fst snd] in Hr. rewrite <- (den_halve_map _ _ E), two_S in Hr. apply cancel2.
  transitivity ((aone + aone) * two k * f x); [ring|exact Hr].
Qed.
Lemma norm_ok gs k s f : Forall fixes gs -> repr (k, s) f -> repr (norm gs k s) f.
Proof. intros Hg Hr. unfold norm. apply halve_ok. intros x. cbn [fst snd]. rewrite den_msort, den_reduce by auto. apply Hr. Qed.

(** generators *)
Definition fixesT (t : bool * N * N) : Prop := let '(b, u, v) := t in (forall i, w <= i -> bit u i = false) /\ forall x, sg b * pact (u, v) f0 x = f0 x.
Lemma mkG_ok t : fixesT t -> fixes (mkG t).
Proof. destruct t as [[b u] v]. unfold fixesT, mkG, fixes. destruct (N.eqb u 0); simpl; auto. Qed.
Lemma redT_sg t g : (exists b, fst t = sg b) -> exists b, fst (redT t g) = sg b.
Proof. intros [b E]. destruct t as [c [u v]]. simpl in E. subst c. unfold redT. destruct (N.testbit _ _); simpl; eauto. rewrite <- sg_xor. eauto. Qed.
Lemma redT_bd t g : fixes g -> (forall i, w <= i -> bit (fst (snd t)) i = false) -> forall i, w <= i -> bit (fst (snd (redT t g))) i = false.
Proof. intros [Hu _] Ht i Hi. destruct t as [c [u v]]. unfold redT. destruct (N.testbit _ _); cbn [fst snd] in *; auto. rewrite bit_lxor, Ht, Hu; auto. Qed.
Lemma red_sg gs : Forall fixes gs -> forall t, (exists b, fst t = sg b) -> (forall i, w <= i -> bit (fst (snd t)) i = false) ->
  (exists b, fst (fold_left redT gs t) = sg b) /\ (forall i, w <= i -> bit (fst (snd (fold_left redT gs t))) i = false).
Proof. induction 1 as [|g gs Hg _ IHg]; intros t Ht Hb; [auto|]. simpl. apply IHg; [now apply redT_sg|now apply redT_bd]. Qed.
Lemma echStep_ok gs t : Forall fixes gs -> fixesT t -> Forall fixes (echStep gs t).
Proof.
  intros Hg Ht. unfold echStep. destruct t as [[b u] v]. destruct Ht as [Hu Hf].
  pose proof (red_sg gs Hg (sg b, (u, v)) (ex_intro _ b eq_refl) Hu) as [[b' Hb] Hu']. pose proof (red_ok gs Hg (sg b, (u, v))) as Hr.
  destruct (fold_left redT gs (sg b, (u, v))) as [c [u' v']]. cbn [fst snd] in *. apply Forall_app. split; [auto|]. constructor; [|constructor].
  apply mkG_ok. split; [auto|]. intros x. rewrite <- (Hf x), <- (Hr x). f_equal. rewrite Hb. destruct b'; reflexivity.
Qed.
Lemma ech_ok l : Forall fixesT l -> Forall fixes (ech l).
Proof.
  unfold ech. intros Hl. assert (G : forall gs, Forall fixes gs -> Forall fixes (fold_left echStep l gs)); [|apply G; constructor].
  induction Hl as [|t l Ht _ IHl]; intros gs Hg; [exact Hg|]. simpl. apply IHl. now apply echStep_ok.
Qed.
End Place.
