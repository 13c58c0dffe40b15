(** * Kun: the rank of the block maps of the product construction (Kunneth formula), by counting kernels *)
From Coq Require Import ZArith.
From mathcomp Require Import all_ssreflect all_algebra.
From Verif Require Import KunA.
From Verif Require Lin Lin2.
Set Implicit Arguments. Unset Strict Implicit. Unset Printing Implicit Defensive.
Import GRing.Theory.
Local Open Scope ring_scope.

Lemma lengthE (T : Type) (s : seq T) : length s = size s. Proof. by []. Qed.
Lemma card_kernel n (M : Lin.mat) (T : finType) (g : T -> Lin.vec) : Lin.wf n M -> injective g ->
  (forall v, Lin2.in_kernel n M v <-> exists t, g t = v) -> #|T| = (2 ^ (n - Lin2.rk n M))%N.
Proof.
move=> W gi im. pose K := Lin2.kernel n M.
have RN : (Lin2.rk n M + size K)%N = n := Lin2.rank_nullity n M W. have IK := Lin2.kernel_indep n M W. have WK := Lin2.kernel_wf n M W.
pose s1 : seq (seq bool) := [seq (g t : seq bool) | t <- enum T].
pose s2 : seq (seq bool) := [seq (Lin.lincomb n (val a) K : seq bool) | a <- enum {: (size K).-tuple bool}].
have u1 : uniq s1 by rewrite map_inj_uniq ?enum_uniq.
have u2 : uniq s2.
  rewrite map_inj_uniq ?enum_uniq // => a b E. apply: val_inj. apply: (lincomb_inj _ _ _ _ WK IK _ _ E); by rewrite lengthE size_tuple.
have e : s1 =i s2.
  move=> v; apply/mapP/mapP.
    case=> t _ Ev. have : Lin2.in_kernel n M v by apply/im; exists t.
    move/(Lin2.kernel_span n M v W) => [c [Lc Ec]]. have sc : size c == size K by apply/eqP.
    by exists (Tuple sc); rewrite ?mem_enum.
  case=> a _ Ev. have : Lin2.in_kernel n M v.
    apply/(Lin2.kernel_span n M v W). exists (val a). split=> //. by rewrite lengthE size_tuple.
  by move/im => [t Et]; exists t; rewrite ?mem_enum.
have := perm_size (uniq_perm u1 u2 e). rewrite !size_map -!enumT -!cardT => S. rewrite [LHS]S card_tuple card_bool. by have := congr1 (subn^~ (Lin2.rk n M)) RN; rewrite addKn => ->.
Qed.

(** ** bits as elements of F_2 *)
Notation F := 'F_2.
Definition b2f (b : bool) : F := b%:R.
Definition f2z (x : F) : Z := if x == 0 then Z0 else Zpos xH.
Lemma b2fK x : b2f (Z.odd (f2z x)) = x.
Proof. by case: x => [[|[|]]] //= i; apply/val_inj. Qed.
Lemma b2f_inj : injective b2f.
Proof. by case; case. Qed.
Lemma b2f0 b : (b2f b == 0) = ~~ b.
Proof. by case: b. Qed.
Lemma b2f_xor a b : b2f (xorb a b) = b2f a + b2f b.
Proof. by case: a; case: b; apply/val_inj. Qed.
Lemma b2f_and a b : b2f (a && b) = b2f a * b2f b.
Proof. by case: a; case: b; apply/val_inj. Qed.
Definition o (z : Z) : F := b2f (Z.odd z).
Lemma oD a b : o (a + b) = o a + o b.
Proof. by rewrite /o Z.odd_add b2f_xor. Qed.
Lemma oM a b : o (a * b) = o a * o b.
Proof. by rewrite /o Z.odd_mul b2f_and. Qed.
Lemma o_sum n f : o (ArrModel.sumZ n f) = \sum_(i < n) o (f i).
Proof. elim: n => [|n IH]; first by rewrite big_ord0. by rewrite big_ord_recr /= oD IH. Qed.
Lemma o_f2z x : o (f2z x) = x. Proof. exact: b2fK. Qed.
Lemma o0 z : (Z.odd z = false) <-> (o z = 0).
Proof. split; first by rewrite /o => ->. by move/eqP; rewrite b2f0 => /negbTE. Qed.
Lemma o_eq a b : o a = o b <-> Z.odd a = Z.odd b.
Proof. split; [exact: b2f_inj | by rewrite /o => ->]. Qed.
(** an integer array as a matrix *)
Definition mxf (r c : nat) (f : nat -> nat -> Z) : 'M[F]_(r, c) := \matrix_(i, j) o (f i j).
(** a matrix as an integer function *)
Definition fmx (r c : nat) (X : 'M[F]_(r, c)) (i j : nat) : Z :=
  match insub i, insub j with Some i', Some j' => f2z (X i' j') | _, _ => Z0 end.
Lemma fmxE r c (X : 'M[F]_(r, c)) (i : 'I_r) (j : 'I_c) : o (fmx X i j) = X i j.
Proof. by rewrite /fmx !valK o_f2z. Qed.
Lemma mxf_fmx r c (X : 'M[F]_(r, c)) : mxf r c (fmx X) = X.
Proof. by apply/matrixP => i j; rewrite mxE fmxE. Qed.

Lemma ltP' m n : (m < n)%N -> (m < n)%coq_nat. Proof. by move/ltP. Qed.

(** columns of a basis of the kernel *)
Lemma kerc_ex (m n : nat) (A : 'M[F]_(m, n)) : exists K : 'M[F]_(n, n - \rank A),
  A *m K = 0 /\ (forall q (X : 'M[F]_(n, q)), A *m X = 0 -> exists V, X = K *m V) /\ (forall q (V W : 'M[F]_(n - \rank A, q)), K *m V = K *m W -> V = W).
Proof.
have E : \rank (kermx A^T) = (n - \rank A)%N by rewrite mxrank_ker mxrank_tr.
rewrite -E. exists (row_base (kermx A^T))^T. split; [|split].
- apply: trmx_inj. rewrite trmx_mul trmxK trmx0. apply/eqP. by rewrite -sub_kermx eq_row_base.
- move=> q X AX. have : (X^T <= kermx A^T)%MS by rewrite sub_kermx -trmx_mul AX trmx0.
  rewrite -(eq_row_base (kermx A^T)) => /submxP [D ED]. exists D^T. apply: trmx_inj. by rewrite trmx_mul !trmxK.
- move=> q V W EV. apply: trmx_inj. apply: (row_free_inj (row_base_free (kermx A^T))).
  by apply: trmx_inj; rewrite /= 2![(_ *m row_base _)^T]trmx_mul !trmxK.
Qed.
(** ** the solutions of hi X + Y P = 0, lo Y = 0 *)
Definition par (a b r m' c' rh rl : nat) : finType := [finType of 'M[F]_(a, r) * 'M[F]_(a - rh, m') * 'M[F]_(b - rl, c')].
Lemma card_par a b r m' c' rh rl : #|par a b r m' c' rh rl| = (2 ^ (a * r + (a - rh) * m' + (b - rl) * c'))%N.
Proof. by rewrite !card_prod !card_mx card_Fp // !expnD. Qed.
Lemma sol_block a b z r m' c' (hi : 'M[F]_(b, a)) (lo : 'M[F]_(z, b)) (E : 'M[F]_(r + c')) (G : 'M[F]_(r + m')) :
  lo *m hi = 0 -> E \in unitmx -> G \in unitmx ->
  exists g : par a b r m' c' (\rank hi) (\rank lo) -> 'M[F]_(a, r + m') * 'M[F]_(b, r + c'), injective g /\
    forall X Y, (hi *m X + Y *m (E *m pid_mx r *m G) = 0 /\ lo *m Y = 0) <-> exists t, g t = (X, Y).
Proof.
move=> lohi Eu Gu. have [Kh [Kh0 [Khs Khi]]] := kerc_ex hi. have [Kl [Kl0 [Kls Kli]]] := kerc_ex lo.
exists (fun t => (row_mx t.1.1 (Kh *m t.1.2) *m G, row_mx (- (hi *m t.1.1)) (Kl *m t.2) *m invmx E)). split.
- move=> [[U V] W] [[U' V'] W'] /= [/(can_inj (mulmxK Gu)) /eq_row_mx [-> /Khi ->]].
  have Iu : invmx E \in unitmx by rewrite unitmx_inv. by move/(can_inj (mulmxK Iu)) /eq_row_mx => [_ /Kli ->].
- move=> X Y. split.
  + case=> H1 H2. pose X' := X *m invmx G. pose Y' := Y *m E.
    have EX : X = X' *m G by rewrite mulmxKV. have EY : Y = Y' *m invmx E by rewrite mulmxK.
    have H1' : hi *m X' + Y' *m pid_mx r = 0.
      by apply: (can_inj (mulmxK Gu)); rewrite mul0mx mulmxDl -mulmxA -EX -H1 !mulmxA.
    have H2' : lo *m Y' = 0 by rewrite mulmxA H2 mul0mx.
    move: H1' H2'; rewrite -(hsubmxK X') -(hsubmxK Y') pid_mx_block !mul_mx_row mul_row_block !mulmx0 mulmx1 !addr0 add_row_mx addr0 => /eqP.
    rewrite row_mx_eq0 => /andP [/eqP A1 /eqP A2] /eqP. rewrite row_mx_eq0 => /andP [_ /eqP A3].
    have [V EV] := Khs _ _ A2. have [W EW] := Kls _ _ A3. exists (lsubmx X', V, W) => /=. 
    rewrite -EV -EW hsubmxK -EX. have -> : - (hi *m lsubmx X') = lsubmx Y' by apply/eqP; rewrite eq_sym -addr_eq0 addrC A1. by rewrite hsubmxK -EY.
  + case=> [[[U V] W]] /= [<- <-]. split.
    * rewrite -!mulmxA (mulmxA (invmx E)) mulVmx // mul1mx !mulmxA -mulmxDl mul_mx_row pid_mx_block mul_row_block !mulmx0 mulmx1 !addr0 add_row_mx subrr mulmxA Kh0 mul0mx addr0 row_mx0 mul0mx //.
    * by rewrite mulmxA mul_mx_row mulmxN !mulmxA lohi Kl0 !mul0mx oppr0 row_mx0 mul0mx.
Qed.
Lemma sol_ex a b z m c (hi : 'M[F]_(b, a)) (lo : 'M[F]_(z, b)) (P : 'M[F]_(c, m)) : lo *m hi = 0 ->
  exists g : par a b (\rank P) (m - \rank P) (c - \rank P) (\rank hi) (\rank lo) -> 'M[F]_(a, m) * 'M[F]_(b, c), injective g /\
    forall X Y, (hi *m X + Y *m P = 0 /\ lo *m Y = 0) <-> exists t, g t = (X, Y).
Proof.
move=> lohi. have rm : (\rank P + (m - \rank P))%N = m by rewrite subnKC // rank_leq_col.
have rc : (\rank P + (c - \rank P))%N = c by rewrite subnKC // rank_leq_row.
have EP := mulmx_ebase P. have Eu := col_ebase_unit P. have Gu := row_ebase_unit P.
move: (col_ebase P) (row_ebase P) EP Eu Gu. move: (\rank P) rm rc => r. move: (m - r)%N (c - r)%N => m' c' Em Ec. subst m c.
move=> E G EP Eu Gu. rewrite -EP. exact: sol_block.
Qed.

Lemma o_mul r n c (f g : nat -> nat -> Z) (i : 'I_r) (j : 'I_c) : o (ArrModel.sumZ n (fun k => Z.mul (f i k) (g k j))) = (mxf r n f *m mxf n c g) i j.
Proof. rewrite o_sum mxE. apply: eq_bigr => k _. by rewrite oM !mxE. Qed.
Lemma eqs_iff r c (f : nat -> nat -> Z) (M : 'M[F]_(r, c)) : (forall (i : 'I_r) (j : 'I_c), o (f i j) = M i j) ->
  (forall i j, lt i r -> lt j c -> Z.odd (f i j) = false) <-> M = 0.
Proof.
move=> fM. split.
- move=> H. apply/matrixP => i j. rewrite -fM mxE. apply/o0. apply: H; exact/ltP.
- move=> M0 i j /ltP Hi /ltP Hj. apply/o0. by rewrite (fM (Ordinal Hi) (Ordinal Hj)) M0 mxE.
Qed.
Lemma low_iff z b c lo Y : (forall i l, lt i z -> lt l c -> Z.odd (ArrModel.sumZ b (fun k => Z.mul (lo i k) (Y k l))) = false) <-> mxf z b lo *m mxf b c Y = 0.
Proof. apply: eqs_iff => i j. exact: o_mul. Qed.
Lemma top_iff a b m c hi p X Y : (forall i l, lt i b -> lt l m -> Z.odd (Z.add (ArrModel.sumZ a (fun k => Z.mul (hi i k) (X k l))) (ArrModel.sumZ c (fun t => Z.mul (p l t) (Y i t)))) = false) <->
  mxf b a hi *m mxf a m X + mxf b c Y *m (mxf m c p)^T = 0.
Proof. apply: eqs_iff => i j. rewrite oD (@o_mul b a m hi X i j) [RHS]mxE. congr (_ + _). rewrite o_sum mxE. apply: eq_bigr => k _. by rewrite oM !mxE mulrC. Qed.
Lemma mxf_eq r c f g : mxf r c f = mxf r c g <-> (forall i j, lt i r -> lt j c -> Z.odd (f i j) = Z.odd (g i j)).
Proof.
split.
- move=> E i j /ltP Hi /ltP Hj. apply/o_eq. by have := congr1 (fun M : 'M_(r, c) => M (Ordinal Hi) (Ordinal Hj)) E; rewrite !mxE.
- move=> H. apply/matrixP => i j. rewrite !mxE. apply/o_eq. apply: H; exact/ltP.
Qed.
Lemma flat_ext a m b c X Y X' Y' : mxf a m X = mxf a m X' -> mxf b c Y = mxf b c Y' ->
  vecZ (a * m + b * c) (flat a m c X Y) = vecZ (a * m + b * c) (flat a m c X' Y').
Proof. move=> /mxf_eq H1 /mxf_eq H2. exact: flat_ext_odd. Qed.

Notation amx A := (mxf (ArrModel.a_rows A) (ArrModel.a_cols A) (ArrModel.a_at A)).
Lemma mid_card (lo hi p : ArrModel.arr) : ArrModel.a_cols lo = ArrModel.a_rows hi ->
  mxf (ArrModel.a_rows lo) (ArrModel.a_rows hi) (ArrModel.a_at lo) *m amx hi = 0 ->
  let N := (ArrModel.a_cols hi * ArrModel.a_rows p + ArrModel.a_rows hi * ArrModel.a_cols p)%N in
  (N - Lin2.rk N (bitsA (ProductProofs.midM lo hi p)))%N =
  (ArrModel.a_cols hi * \rank (amx p) + (ArrModel.a_cols hi - \rank (amx hi)) * (ArrModel.a_rows p - \rank (amx p)) +
   (ArrModel.a_rows hi - \rank (amx lo)) * (ArrModel.a_cols p - \rank (amx p)))%N.
Proof.
move=> Elo Z N. have [g [gi gs]] := sol_ex (amx p)^T Z. rewrite mxrank_tr in g gi gs.
pose h t := vecZ N (flat (ArrModel.a_cols hi) (ArrModel.a_rows p) (ArrModel.a_cols p) (fmx (g t).1) (fmx (g t).2)).
have W : Lin.wf N (bitsA (ProductProofs.midM lo hi p)) := bitsA_wf (ProductProofs.midM lo hi p).
have hi_inj : injective h.
  move=> s t E. apply: gi. have [E1 E2] := flat_inj _ _ _ _ _ _ _ _ E. rewrite [g s]surjective_pairing [g t]surjective_pairing.
  congr (_, _); rewrite -[LHS]mxf_fmx -[RHS]mxf_fmx; exact/mxf_eq.
have im v : Lin2.in_kernel N (bitsA (ProductProofs.midM lo hi p)) v <-> exists t, h t = v.
  split.
  - move=> Kv. have Lv : length v = N by case: Kv. have [X [Y Ev]] := flat_all _ _ _ _ v Lv. rewrite Ev in Kv.
    move/(kernel_mid lo hi p X Y Elo): Kv => [/top_iff K1]. rewrite Elo => /low_iff K2.
    have /gs [t Et] := conj K1 K2. exists t. rewrite /h Et Ev /=. apply: flat_ext; exact: mxf_fmx.
  - move=> [t <-]. apply/(kernel_mid lo hi p _ _ Elo). have /gs := ex_intro (fun s => g s = ((g t).1, (g t).2)) t (surjective_pairing _). case=> K1 K2.
    split; [apply/top_iff | rewrite Elo; apply/low_iff]; by rewrite !mxf_fmx.
have := card_kernel W hi_inj im. rewrite card_par => /eqP. rewrite eqn_exp2l // => /eqP <-. by rewrite Elo.
Qed.

Lemma rank_bits (A : ArrModel.arr) : Lin2.rk (ArrModel.a_cols A) (bitsA A) = \rank (amx A).
Proof.
have [K [K0 [Ks Ki]]] := kerc_ex (amx A). have W : Lin.wf (ArrModel.a_cols A) (bitsA A) := bitsA_wf A.
pose h (V : 'M[F]_(ArrModel.a_cols A - \rank (amx A), 1)) := vecZ (ArrModel.a_cols A) (fun j => fmx (K *m V) j 0%N).
have lt01 : lt 0 1 by apply/ltP.
have h_inj : injective h.
  move=> V V' E. apply: Ki. rewrite -[LHS]mxf_fmx -[RHS]mxf_fmx. apply/mxf_eq => i [|j] Hi Hj; last by move/ltP: Hj. exact: (vecZ_inj _ _ _ E i Hi).
have im v : Lin2.in_kernel (ArrModel.a_cols A) (bitsA A) v <-> exists V, h V = v.
  split.
  - move=> Kv. have Lv : length v = ArrModel.a_cols A by case: Kv. have Ev := vecZ_nth v. rewrite Lv in Ev. rewrite Ev in Kv. move/kernel_vecZ: Kv => Kv.
    pose X (j l : nat) : Z := Z.b2z (List.nth j v false).
    have /low_iff K1 : forall i l, lt i (ArrModel.a_rows A) -> lt l 1 -> Z.odd (ArrModel.sumZ (ArrModel.a_cols A) (fun k => Z.mul (ArrModel.a_at A i k) (X k l))) = false by move=> i l Hi _; exact: Kv.
    have [V EV] := Ks _ _ K1. exists V. rewrite Ev /h -EV. apply: vecZ_ext => j Hj.
    by have /mxf_eq H := mxf_fmx (mxf (ArrModel.a_cols A) 1 X); exact: (H j 0%N Hj lt01).
  - move=> [V <-]. apply/kernel_vecZ => i Hi. have /low_iff H : amx A *m mxf (ArrModel.a_cols A) 1 (fmx (K *m V)) = 0 by rewrite mxf_fmx mulmxA K0 mul0mx.
    exact: (H i 0%N Hi lt01).
have := card_kernel W h_inj im. rewrite card_mx card_Fp // muln1 => /eqP. rewrite eqn_exp2l // => /eqP E.
have RN := Lin2.rank_nullity _ _ W. have L1 : (Lin2.rk (ArrModel.a_cols A) (bitsA A) <= ArrModel.a_cols A)%N by rewrite -{2}RN leq_addr.
by rewrite -[LHS](subKn L1) -E subKn // rank_leq_col.
Qed.
Lemma rank_tr (A : ArrModel.arr) : Lin2.rk (ArrModel.a_cols (ArrModel.trA A)) (bitsA (ArrModel.trA A)) = Lin2.rk (ArrModel.a_cols A) (bitsA A).
Proof. rewrite !rank_bits -mxrank_tr. congr (\rank _). by apply/matrixP => i j; rewrite !mxE. Qed.
Lemma mxf_mul0 lo hi : ArrModel.a_cols lo = ArrModel.a_rows hi -> ArrProofs.zero2 (ArrModel.mmul lo hi) ->
  mxf (ArrModel.a_rows lo) (ArrModel.a_rows hi) (ArrModel.a_at lo) *m amx hi = 0.
Proof.
move=> E Z. apply/low_iff => i l Hi Hl. rewrite -E -Z.negb_even. have := Z i l Hi Hl. by rewrite /= => ->.
Qed.
(** the rank of the middle map *)
Lemma rank_mid (lo hi p : ArrModel.arr) : ArrModel.a_cols lo = ArrModel.a_rows hi -> ArrProofs.zero2 (ArrModel.mmul lo hi) ->
  Nat.add (rkA (ProductProofs.midM lo hi p)) (Nat.add (Nat.add (Nat.mul (ArrModel.a_cols hi) (rkA p)) (Nat.mul (Nat.sub (ArrModel.a_cols hi) (rkA hi)) (Nat.sub (ArrModel.a_rows p) (rkA p))))
    (Nat.mul (Nat.sub (ArrModel.a_rows hi) (rkA lo)) (Nat.sub (ArrModel.a_cols p) (rkA p)))) = ArrModel.a_cols (ProductProofs.midM lo hi p).
Proof.
move=> E Z. have := mid_card p E (mxf_mul0 E Z). rewrite /rkA (rank_bits p) (rank_bits hi) (rank_bits lo) => H.
have L1 : (Lin2.rk (ArrModel.a_cols (ProductProofs.midM lo hi p)) (bitsA (ProductProofs.midM lo hi p)) <= ArrModel.a_cols (ProductProofs.midM lo hi p))%N.
  have RN := Lin2.rank_nullity _ _ (bitsA_wf (ProductProofs.midM lo hi p)). by rewrite -{2}RN leq_addr.
rewrite -[RHS](subnKC L1). exact: (congr1 (addn _) (esym H)).
Qed.
Lemma rank_trA (A : ArrModel.arr) : rkA (ArrModel.trA A) = rkA A.
Proof. exact: rank_tr. Qed.
Lemma rank_le (A : ArrModel.arr) : le (rkA A) (ArrModel.a_rows A) /\ le (rkA A) (ArrModel.a_cols A).
Proof. rewrite /rkA rank_bits. split; apply/leP; [exact: rank_leq_row | exact: rank_leq_col]. Qed.
