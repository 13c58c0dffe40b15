(** * TextProofs: the specification of numbers and rows in texts, and reading and printing them *)
From Coq Require Import List Arith Bool Ascii String ZArith QArith Lia.
From Verif Require Import TextModel.
Import ListNotations.
Local Open Scope nat_scope.

(** ** Specification *)
(** blank, tab, vertical tab, form feed, carriage return *)
Definition blank (c : ascii) : Prop := In c [" "; "009"; "011"; "012"; "013"]%char.
Definition blanks (s : text) : Prop := Forall blank s.
Definition digitChar (d : nat) : ascii := ascii_of_nat (48 + d).
(** a sequence of decimal digits and its value *)
Inductive digits : text -> Z -> Prop :=
| dig_one d : d < 10 -> digits [digitChar d] (Z.of_nat d)
| dig_more t z d : digits t z -> d < 10 -> digits (t ++ [digitChar d]) (10 * z + Z.of_nat d).
(** with a sign or without *)
Inductive numeral : text -> Z -> Prop :=
| num_bare t z : digits t z -> numeral t z
| num_plus t z : digits t z -> numeral ("+"%char :: t) z
| num_minus t z : digits t z -> numeral ("-"%char :: t) (- z).
Definition fits (z : Z) : Prop := (-2147483648 <= z <= 2147483647)%Z.
(** the text does not start with a digit *)
Definition no_digit (s : text) : Prop := forall d s', d < 10 -> s <> digitChar d :: s'.
(** a line of numbers, each with blanks before it: the entries are the numbers that are not zero *)
Inductive row_text : text -> list bool -> Prop :=
| rt_end b : blanks b -> row_text b []
| rt_cons b t z l r : blanks b -> numeral t z -> fits z -> no_digit l -> row_text l r -> row_text (b ++ t ++ l) (negb (z =? 0)%Z :: r).
Definition no_number (s : text) : Prop := forall b t z s', blanks b -> numeral t z -> s <> b ++ t ++ s'.
Definition one_line (s : text) : Prop := ~ In "010"%char s.
(** lines with a newline after each *)
Definition unlines (ls : list text) : text := concat (map (fun l => l ++ ["010"%char]) ls).

(** ** Characters *)
Lemma digitChar_nat d : d < 10 -> nat_of_ascii (digitChar d) = 48 + d.
Proof. intros Hd. unfold digitChar. apply nat_ascii_embedding. lia. Qed.
Lemma isdigit_char d : d < 10 -> isdigit (digitChar d) = true.
Proof. intros Hd. unfold isdigit. rewrite digitChar_nat by auto. apply andb_true_iff. rewrite !Nat.leb_le. lia. Qed.
Lemma isdigit_inv c : isdigit c = true -> exists d, d < 10 /\ c = digitChar d.
Proof. unfold isdigit. intros E. apply andb_true_iff in E. destruct E as [E1 E2]. rewrite Nat.leb_le in E1, E2.
  exists (nat_of_ascii c - 48). split; [lia|]. unfold digitChar. replace (48 + (nat_of_ascii c - 48)) with (nat_of_ascii c) by lia.
  now rewrite ascii_nat_embedding. Qed.
Lemma digitZ_char d : d < 10 -> digitZ (digitChar d) = Z.of_nat d.
Proof. intros Hd. unfold digitZ. rewrite digitChar_nat by auto. f_equal. lia. Qed.
Lemma isdigit_nospace c : isdigit c = true -> isspace c = false.
Proof. intros E. destruct (isdigit_inv c E) as (d & Hd & ->). unfold isspace. rewrite digitChar_nat by auto. cbn zeta.
  destruct (Nat.eqb_spec (48 + d) 32); [lia|]. destruct (Nat.leb_spec (48 + d) 13); [lia|]. now rewrite andb_false_r. Qed.
Lemma isdigit_sign c : isdigit c = true -> Ascii.eqb c "-" = false /\ Ascii.eqb c "+" = false.
Proof. intros E. split; apply Ascii.eqb_neq; intros ->; discriminate E. Qed.
Lemma blank_space c : blank c -> isspace c = true.
Proof. intros H. cbn in H. destruct H as [<- | [<- | [<- | [<- | [<- | []]]]]]; reflexivity. Qed.
Lemma space_blank c : isspace c = true -> c <> "010"%char -> blank c.
Proof. intros E Hn. unfold isspace in E. unfold blank.
  assert (Hc : nat_of_ascii c = 32 \/ nat_of_ascii c = 9 \/ nat_of_ascii c = 10 \/ nat_of_ascii c = 11 \/ nat_of_ascii c = 12 \/ nat_of_ascii c = 13).
  { cbv zeta in E. apply orb_true_iff in E. destruct E as [E | E]; [apply Nat.eqb_eq in E; auto|].
    apply andb_true_iff in E. rewrite !Nat.leb_le in E. lia. }
  assert (Hx : forall k, nat_of_ascii c = k -> c = ascii_of_nat k) by (intros k <-; now rewrite ascii_nat_embedding).
  destruct Hc as [Hc | [Hc | [Hc | [Hc | [Hc | Hc]]]]]; apply Hx in Hc; rewrite Hc in *; cbn in *; auto 7; congruence. Qed.
Lemma blanks_skip b s : blanks b -> skipws (b ++ s) = skipws s.
Proof. induction 1 as [|c b Hc Hb IH]; [reflexivity|]. cbn. now rewrite (blank_space c Hc). Qed.
Lemma no_digit_hd s : no_digit s -> match s with c :: _ => isdigit c = false | [] => True end.
Proof. destruct s as [|c s]; [auto|]. intros H. destruct (isdigit c) eqn:E; [|auto]. destruct (isdigit_inv c E) as (d & Hd & ->).
  exfalso. exact (H d s Hd eq_refl). Qed.
Lemma hd_no_digit s : match s with c :: _ => isdigit c = false | [] => True end -> no_digit s.
Proof. intros H d s' Hd ->. pose proof (isdigit_char d Hd) as E. congruence. Qed.

(** ** Numbers *)
Lemma span_app t g : forallb isdigit t = true -> no_digit g -> spanDigits (t ++ g) = (t, g).
Proof. intros Ht Hg. apply no_digit_hd in Hg. induction t as [|c t IH]; cbn in *.
  - destruct g as [|c g]; [reflexivity|]. cbn. now rewrite Hg.
  - apply andb_true_iff in Ht. destruct Ht as [H1 H2]. now rewrite H1, (IH H2). Qed.
Lemma span_spec s d r : spanDigits s = (d, r) -> s = d ++ r /\ forallb isdigit d = true /\ no_digit r.
Proof. revert d r. induction s as [|c s IH]; intros d r E; cbn in E.
  - injection E as <- <-. split; [reflexivity|]. split; [reflexivity|]. apply hd_no_digit; auto.
  - destruct (isdigit c) eqn:Ec.
    + destruct (spanDigits s) as [d0 r0]. injection E as <- <-. destruct (IH d0 r0 eq_refl) as (-> & H2 & H3).
      split; [reflexivity|]. split; [cbn; now rewrite Ec|auto].
    + injection E as <- <-. split; [reflexivity|]. split; [reflexivity|]. apply hd_no_digit; auto. Qed.
Lemma decimal_snoc t c : decimal (t ++ [c]) = (10 * decimal t + digitZ c)%Z.
Proof. unfold decimal. rewrite fold_left_app. cbn [fold_left]. f_equal. apply Z.mul_comm. Qed.
Lemma digits_spec t z : digits t z -> forallb isdigit t = true /\ t <> [] /\ decimal t = z.
Proof. induction 1 as [d Hd | t z d Ht IH Hd].
  - split; [cbn [forallb]; now rewrite isdigit_char|]. split; [discriminate|]. unfold decimal. cbn [fold_left]. rewrite digitZ_char by auto. lia.
  - destruct IH as (H1 & H2 & H3). split; [rewrite forallb_app, H1; cbn [forallb andb]; now rewrite isdigit_char|].
    split; [now destruct t|]. rewrite decimal_snoc, digitZ_char, H3 by auto. reflexivity. Qed.
Lemma digits_of t : forallb isdigit t = true -> t <> [] -> digits t (decimal t).
Proof. induction t as [|c t IH] using rev_ind; [congruence|]. intros Ht _. rewrite forallb_app in Ht. apply andb_true_iff in Ht.
  destruct Ht as [H1 H2]. cbn in H2. rewrite andb_true_r in H2. destruct (isdigit_inv c H2) as (d & Hd & ->).
  destruct t as [|a t].
  - unfold decimal. cbn [app fold_left]. rewrite digitZ_char by auto. replace (0 * 10 + Z.of_nat d)%Z with (Z.of_nat d) by lia. now constructor.
  - rewrite decimal_snoc, digitZ_char by auto. constructor; auto. apply IH; [auto | discriminate]. Qed.
Lemma digits_hd t z : digits t z -> exists c t', t = c :: t' /\ isdigit c = true.
Proof. intros H. apply digits_spec in H. destruct H as (H1 & H2 & _). destruct t as [|c t]; [congruence|]. cbn in H1.
  apply andb_true_iff in H1. exists c, t. tauto. Qed.
Lemma fits_dec z : fits z -> (intMin <=? z)%Z && (z <=? intMax)%Z = true.
Proof. intros [H1 H2]. apply andb_true_iff. rewrite !Z.leb_le. unfold intMin, intMax. lia. Qed.
Lemma not_fits_dec z : ~ fits z -> (intMin <=? z)%Z && (z <=? intMax)%Z = false.
Proof. intros H. destruct ((intMin <=? z)%Z && (z <=? intMax)%Z) eqn:E; [|auto]. apply andb_true_iff in E. rewrite !Z.leb_le in E.
  unfold intMin, intMax in E. exfalso. apply H. unfold fits. lia. Qed.

(** the sign and digits after the blanks *)
Definition readNum (s1 : text) : option (Z * text) :=
  let '(neg, s2) := match s1 with
                    | c :: r => if Ascii.eqb c "-" then (true, r) else if Ascii.eqb c "+" then (false, r) else (false, s1)
                    | [] => (false, s1)
                    end in
  let '(d, r) := spanDigits s2 in
  match d with
  | [] => None
  | _ => let z := if neg then (- decimal d)%Z else decimal d in
         if (intMin <=? z)%Z && (z <=? intMax)%Z then Some (z, r) else None
  end.
Lemma readInt_num s : readInt s = readNum (skipws s). Proof. reflexivity. Qed.

Lemma readNum_num t z g : numeral t z -> no_digit g ->
  readNum (t ++ g) = if (intMin <=? z)%Z && (z <=? intMax)%Z then Some (z, g) else None.
Proof. intros Ht Hg. destruct Ht as [t z Ht | t z Ht | t z Ht]; pose proof (digits_spec t z Ht) as (H1 & H2 & H3).
  - destruct (digits_hd t z Ht) as (c & t' & -> & Hc). destruct (isdigit_sign c Hc) as [S1 S2]. unfold readNum. cbn [app]. rewrite S1, S2.
    change (c :: t' ++ g) with ((c :: t') ++ g). rewrite span_app by auto. now rewrite H3.
  - unfold readNum. cbn [app]. change (Ascii.eqb "+" "-") with false. change (Ascii.eqb "+" "+") with true. cbn match. rewrite span_app by auto.
    destruct t; [congruence|]. now rewrite H3.
  - unfold readNum. cbn [app]. change (Ascii.eqb "-" "-") with true. cbn match. rewrite span_app by auto.
    destruct t; [congruence|]. now rewrite H3. Qed.
Lemma numeral_hd t z : numeral t z -> exists c t', t = c :: t' /\ isspace c = false.
Proof. intros [t0 z0 Ht | t0 z0 Ht | t0 z0 Ht]; [|eexists; eexists; split; reflexivity ..].
  destruct (digits_hd _ _ Ht) as (c & t' & -> & Hc). exists c, t'. split; [auto|]. now apply isdigit_nospace. Qed.
Lemma readInt_ok b t z g : blanks b -> numeral t z -> fits z -> no_digit g -> readInt (b ++ t ++ g) = Some (z, g).
Proof. intros Hb Ht Hz Hg. rewrite readInt_num, blanks_skip by auto. destruct (numeral_hd t z Ht) as (c & t' & E & Hc).
  replace (skipws (t ++ g)) with (t ++ g) by (rewrite E; cbn; now rewrite Hc). rewrite (readNum_num t z g Ht Hg), (fits_dec z Hz). reflexivity. Qed.
Lemma readInt_large b t z g : blanks b -> numeral t z -> ~ fits z -> no_digit g -> readInt (b ++ t ++ g) = None.
Proof. intros Hb Ht Hz Hg. rewrite readInt_num, blanks_skip by auto. destruct (numeral_hd t z Ht) as (c & t' & E & Hc).
  replace (skipws (t ++ g)) with (t ++ g) by (rewrite E; cbn; now rewrite Hc). rewrite (readNum_num t z g Ht Hg), (not_fits_dec z Hz). reflexivity. Qed.

Lemma skipws_spec s : one_line s -> exists b, blanks b /\ s = b ++ skipws s.
Proof. intros H. induction s as [|c s IH]; cbn; [exists []; split; [constructor|auto]|].
  destruct (isspace c) eqn:E.
  - destruct IH as (b & Hb & Eb); [intros Hi; apply H; now right|]. exists (c :: b). split; [|cbn; congruence].
    constructor; auto. apply space_blank; auto. intros ->. apply H. now left.
  - exists []. split; [constructor|auto]. Qed.

(** what follows the blanks is a numeral, or there is none *)
Lemma readNum_cases s : (exists t z g, s = t ++ g /\ numeral t z /\ no_digit g) \/
  (readNum s = None /\ forall t z g, numeral t z -> s <> t ++ g).
Proof.
  assert (Hnd : forall s d r, spanDigits s = (d, r) -> d <> [] -> digits d (decimal d) /\ s = d ++ r /\ no_digit r).
  { intros s0 d r E Hd. destruct (span_spec s0 d r E) as (H1 & H2 & H3). split; [now apply digits_of|]. tauto. }
  assert (Hno : forall s d r, spanDigits s = (d, r) -> d = [] -> forall t z g, digits t z -> s <> t ++ g).
  { intros s0 d r E -> t z g Ht E0. destruct (span_spec s0 [] r E) as (H1 & _ & H3). cbn in H1. subst r.
    destruct (digits_hd t z Ht) as (c & t' & -> & Hc). subst s0. apply no_digit_hd in H3. cbn in H3. congruence. }
  destruct s as [|c s].
  { right. split; [reflexivity|]. intros t z g Ht E. destruct (numeral_hd t z Ht) as (c & t' & -> & _). discriminate E. }
  destruct (Ascii.eqb_spec c "-") as [-> | N1]; [|destruct (Ascii.eqb_spec c "+") as [-> | N2]].
  - destruct (spanDigits s) as [d r] eqn:E. destruct d as [|x d].
    + right. split; [unfold readNum; cbn; now rewrite E|]. intros t z g Ht E0. inversion Ht as [t0 z0 H0 | t0 z0 H0 | t0 z0 H0]; subst.
      * destruct (digits_hd _ _ H0) as (c & t' & -> & Hc). injection E0 as <- _. discriminate Hc.
      * discriminate E0.
      * cbn in E0. injection E0 as E0. exact (Hno _ _ _ E eq_refl _ _ g H0 E0).
    + left. destruct (Hnd _ _ _ E ltac:(discriminate)) as (H1 & H2 & H3). exists ("-"%char :: x :: d), (- decimal (x :: d))%Z, r.
      split; [cbn; cbn in H2; congruence|]. split; [now constructor|auto].
  - destruct (spanDigits s) as [d r] eqn:E. destruct d as [|x d].
    + right. split; [unfold readNum; cbn; now rewrite E|]. intros t z g Ht E0. inversion Ht as [t0 z0 H0 | t0 z0 H0 | t0 z0 H0]; subst.
      * destruct (digits_hd _ _ H0) as (c & t' & -> & Hc). injection E0 as <- _. discriminate Hc.
      * cbn in E0. injection E0 as E0. exact (Hno _ _ _ E eq_refl _ _ g H0 E0).
      * discriminate E0.
    + left. destruct (Hnd _ _ _ E ltac:(discriminate)) as (H1 & H2 & H3). exists ("+"%char :: x :: d), (decimal (x :: d))%Z, r.
      split; [cbn; cbn in H2; congruence|]. split; [now constructor|auto].
  - destruct (spanDigits (c :: s)) as [d r] eqn:E. destruct d as [|x d].
    + right. split.
      * unfold readNum. rewrite (proj2 (Ascii.eqb_neq _ _) N1), (proj2 (Ascii.eqb_neq _ _) N2), E. reflexivity.
      * intros t z g Ht E0. inversion Ht as [t0 z0 H0 | t0 z0 H0 | t0 z0 H0]; subst.
        -- exact (Hno _ _ _ E eq_refl _ _ g H0 E0).
        -- injection E0 as -> _. congruence.
        -- injection E0 as -> _. congruence.
    + left. destruct (Hnd _ _ _ E ltac:(discriminate)) as (H1 & H2 & H3). exists (x :: d), (decimal (x :: d))%Z, r.
      split; [auto|]. split; [now constructor|auto]. Qed.

Lemma skipws_nospace s : match skipws s with c :: _ => isspace c = false | [] => True end.
Proof. induction s as [|c s IH]; cbn; [auto|]. destruct (isspace c) eqn:E; auto. Qed.
Lemma skipws_prefix b s c x : blanks b -> s = b ++ c :: x -> isspace c = false -> skipws s = c :: x.
Proof. intros Hb -> Hc. rewrite blanks_skip by auto. cbn. now rewrite Hc. Qed.

(** every line: it starts with a number that fits, or with one that does not, or there is no number at the front *)
Lemma readInt_cases s : one_line s ->
  (exists b t z g, s = b ++ t ++ g /\ blanks b /\ numeral t z /\ no_digit g /\ fits z /\ readInt s = Some (z, g)) \/
  (exists b t z g, s = b ++ t ++ g /\ blanks b /\ numeral t z /\ no_digit g /\ ~ fits z /\ readInt s = None) \/
  (no_number s /\ readInt s = None).
Proof. intros H. destruct (skipws_spec s H) as (b & Hb & Es). destruct (readNum_cases (skipws s)) as [(t & z & g & E & Ht & Hg) | [E Hn]].
  - rewrite E in Es. assert (Hf : fits z \/ ~ fits z) by (unfold fits; lia). destruct Hf as [Hf | Hf].
    + left. exists b, t, z, g. split; [auto|]. split; [auto|]. split; [auto|]. split; [auto|]. split; [auto|]. rewrite Es. now apply readInt_ok.
    + right. left. exists b, t, z, g. split; [auto|]. split; [auto|]. split; [auto|]. split; [auto|]. split; [auto|]. rewrite Es. now apply (readInt_large b t z g).
  - right. right. split; [|rewrite readInt_num; exact E]. intros b' t z s' Hb' Ht E'. destruct (numeral_hd t z Ht) as (c & t' & Et & Hc).
    apply (Hn t z s' Ht). subst t. exact (skipws_prefix b' s c (t' ++ s') Hb' E' Hc). Qed.
Lemma readInt_no_number s b : blanks b -> one_line s -> no_number s -> readInt (b ++ s) = None.
Proof. intros Hb Ho Hs. rewrite readInt_num, blanks_skip by auto.
  destruct (skipws_spec s Ho) as (b0 & H0 & E0). destruct (readNum_cases (skipws s)) as [(t & z & g & E & Ht & Hg) | [E _]]; [|exact E].
  exfalso. apply (Hs b0 t z g H0 Ht). congruence. Qed.

(** ** Rows *)
Lemma skipws_length s : List.length (skipws s) <= List.length s.
Proof. induction s as [|c s IH]; cbn; [auto|]. destruct (isspace c); cbn; lia. Qed.
Lemma readInt_shorter s z r : readInt s = Some (z, r) -> List.length r < List.length s.
Proof. rewrite readInt_num. intros E. pose proof (skipws_length s) as Hl. destruct (readNum_cases (skipws s)) as [(t & y & g & E0 & Ht & Hg) | [E0 _]]; [|congruence].
  rewrite E0 in *. rewrite (readNum_num t y g Ht Hg) in E. destruct ((intMin <=? y)%Z && (y <=? intMax)%Z); [|discriminate]. injection E as <- <-.
  destruct (numeral_hd t y Ht) as (c & t' & -> & _). cbn in Hl. rewrite app_length in Hl. lia. Qed.
Lemma readRowF_enough k : forall s m, List.length s < k -> List.length s < m -> readRowF k s = readRowF m s.
Proof. induction k as [|k IH]; intros s m Hk Hm; [lia|]. destruct m as [|m]; [lia|]. cbn. destruct (readInt s) as [[z r]|] eqn:E; [|auto].
  f_equal. pose proof (readInt_shorter _ _ _ E). apply IH; lia. Qed.
Lemma readRow_eq s : readRow s = match readInt s with Some (z, r) => negb (z =? 0)%Z :: readRow r | None => [] end.
Proof. unfold readRow at 1. cbn [readRowF]. destruct (readInt s) as [[z r]|] eqn:E; [|auto]. f_equal. pose proof (readInt_shorter _ _ _ E).
  apply readRowF_enough; lia. Qed.
Lemma readInt_blanks b : blanks b -> readInt b = None.
Proof. intros Hb. rewrite readInt_num. replace b with (b ++ []) by apply app_nil_r. rewrite blanks_skip by auto. reflexivity. Qed.

Lemma no_digit_app l g : no_digit l -> no_digit g -> no_digit (l ++ g).
Proof. intros H1 H2. apply hd_no_digit. apply no_digit_hd in H1, H2. destruct l; cbn; auto. Qed.
Lemma no_number_no_digit g : no_number g -> no_digit g.
Proof. intros H d s' Hd ->. apply (H [] [digitChar d] (Z.of_nat d) s'); [constructor | constructor; now constructor | reflexivity]. Qed.

Lemma row_read l r : row_text l r -> readRow l = r.
Proof. induction 1 as [b Hb | b t z l r Hb Ht Hz Hl Hr IH].
  - rewrite readRow_eq, readInt_blanks by auto. reflexivity.
  - rewrite readRow_eq, (readInt_ok b t z l) by auto. now rewrite IH. Qed.
Lemma row_stops l r g : row_text l r -> one_line g -> no_number g -> readRow (l ++ g) = r.
Proof. intros H Ho Hg. induction H as [b Hb | b t z l r Hb Ht Hz Hl Hr IH].
  - rewrite readRow_eq, readInt_no_number by auto. reflexivity.
  - rewrite readRow_eq. rewrite <- !app_assoc. rewrite (readInt_ok b t z (l ++ g)); auto; [now rewrite IH|].
    apply no_digit_app; auto. now apply no_number_no_digit. Qed.
Lemma row_large l r b t z g : row_text l r -> blanks b -> numeral t z -> ~ fits z -> no_digit g -> (l = [] \/ no_digit (b ++ t ++ g)) ->
  readRow (l ++ b ++ t ++ g) = r.
Proof. intros H Hb Ht Hz Hg Hn. assert (Hb0 : forall b0, blanks b0 -> readInt (b0 ++ b ++ t ++ g) = None).
  { intros b0 H0. rewrite app_assoc. apply (readInt_large (b0 ++ b) t z g); auto. now apply Forall_app. }
  induction H as [b0 H0 | b0 t0 z0 l r H0 Ht0 Hz0 Hl Hr IH].
  - rewrite readRow_eq, Hb0 by auto. reflexivity.
  - destruct Hn as [Hn | Hn].
    { destruct (numeral_hd _ _ Ht0) as (c & t' & -> & _). destruct b0; discriminate Hn. }
    rewrite readRow_eq. rewrite <- (app_assoc b0), <- (app_assoc t0). rewrite (readInt_ok b0 t0 z0); auto; [now rewrite IH by auto|].
    apply no_digit_app; auto. Qed.
(** every line is a row, and something that stops the reading *)
Lemma row_always : forall s, one_line s -> exists l g, s = l ++ g /\ row_text l (readRow s) /\
  (no_number g \/ exists b t z g', g = b ++ t ++ g' /\ blanks b /\ numeral t z /\ ~ fits z /\ no_digit g').
Proof. intros s. remember (List.length s) as n eqn:En. revert s En. induction n as [n IH] using lt_wf_ind. intros s -> Ho.
  rewrite readRow_eq. destruct (readInt_cases s Ho) as [(b & t & z & g & E & Hb & Ht & Hg & Hf & Er) | [(b & t & z & g & E & Hb & Ht & Hg & Hf & Er) | [Hn Er]]]; rewrite Er.
  - destruct (IH (List.length g)) with (s := g) as (l & g' & E' & Hl & Hst); auto.
    + now apply (readInt_shorter s z g).
    + intros Hi. apply Ho. rewrite E. apply in_or_app. right. apply in_or_app. now right.
    + exists (b ++ t ++ l), g'. split; [rewrite E, E', <- !app_assoc; reflexivity|]. split; [|exact Hst].
      constructor; auto. subst g. apply no_digit_hd in Hg. apply hd_no_digit. destruct l; auto.
  - exists [], s. split; [reflexivity|]. split; [constructor; constructor|]. right. exists b, t, z, g. auto.
  - exists [], s. split; [reflexivity|]. split; [constructor; constructor|]. now left. Qed.

(** ** Lines *)
Lemma getlines_line l s : one_line l -> getlines (l ++ nl :: s) = l :: getlines s.
Proof. induction l as [|c l IH]; intros H; cbn; [reflexivity|]. destruct (Ascii.eqb_spec c nl) as [-> | N]; [exfalso; apply H; now left|].
  rewrite IH; [reflexivity|]. intros Hi. apply H. now right. Qed.
Lemma getlines_last l : one_line l -> l <> [] -> getlines l = [l].
Proof. induction l as [|c l IH]; intros H N; [congruence|]. cbn. destruct (Ascii.eqb_spec c nl) as [-> | Nc]; [exfalso; apply H; now left|].
  destruct l as [|d l]; [reflexivity|]. rewrite IH; [reflexivity | intros Hi; apply H; now right | discriminate]. Qed.
Lemma getlines_unlines ls s : Forall one_line ls -> getlines (unlines ls ++ s) = ls ++ getlines s.
Proof. induction 1 as [|l ls Hl Hls IH]; [reflexivity|]. unfold unlines in *. cbn [map concat]. rewrite <- !app_assoc. cbn [app].
  rewrite (getlines_line l) by auto. now rewrite IH. Qed.
Lemma rows_read ls M : Forall2 row_text ls M -> map readRow ls = M.
Proof. induction 1 as [|l r ls M Hl Hls IH]; [reflexivity|]. cbn [map]. now rewrite (row_read l r Hl), IH. Qed.

(** ** Printing *)
Lemma one_line_app a b : one_line a -> one_line b -> one_line (a ++ b).
Proof. intros H1 H2 Hi. apply in_app_or in Hi. destruct Hi; auto. Qed.
Lemma showF_digits k : forall n, n < k -> digits (showF k n) (Z.of_nat n).
Proof. induction k as [|k IH]; intros n Hn; [lia|]. cbn [showF]. destruct (Nat.ltb_spec n 10) as [H | H]; [now constructor|].
  assert (E : n = 10 * (n / 10) + n mod 10) by (apply Nat.div_mod; lia).
  assert (Hm : n mod 10 < 10) by (apply Nat.mod_upper_bound; lia).
  replace (Z.of_nat n) with (10 * Z.of_nat (n / 10) + Z.of_nat (n mod 10))%Z by lia.
  change (digitOf (n mod 10)) with (digitChar (n mod 10)). constructor; [|auto]. apply IH. assert (n / 10 < n) by (apply Nat.div_lt; lia). lia. Qed.
Lemma showNat_digits n : digits (showNat n) (Z.of_nat n).
Proof. apply showF_digits. lia. Qed.
Lemma digits_one_line t z : digits t z -> one_line t.
Proof. intros H. apply digits_spec in H. destruct H as (H & _ & _). intros Hi. rewrite forallb_forall in H. specialize (H _ Hi). discriminate H. Qed.
Lemma showBits_one_line v : one_line (showBits v).
Proof. induction v as [|b v IH]; [intros []|]. cbn [showBits]. destruct v as [|c v].
  - destruct b; intros [E | []]; discriminate E.
  - intros Hi. apply in_app_or in Hi. destruct Hi as [Hi | Hi]; [destruct b, Hi as [E | []]; discriminate E|].
    destruct Hi as [E | Hi]; [discriminate E | auto]. Qed.
Lemma showBits_close v : forall w s s', showBits v ++ "]"%char :: s = showBits w ++ "]"%char :: s' -> v = w /\ s = s'.
Proof. induction v as [|b v IH]; intros w s s' E.
  - destruct w as [|c w]; [cbn in E; injection E as E; auto|]. exfalso. cbn [showBits app] in E. destruct w; destruct c; discriminate E.
  - destruct w as [|c w]; [exfalso; cbn [showBits app] in E; destruct v, b; discriminate E|].
    assert (Hbc : b = c). { destruct b, c, v, w; auto; discriminate E. } subst c.
    destruct v as [|b2 v], w as [|c2 w].
    + destruct b; cbn in E; injection E as E; auto.
    + destruct b; discriminate E.
    + destruct b; discriminate E.
    + cbn [showBits] in E. rewrite <- !app_assoc in E. apply app_inv_head in E. cbn [app] in E. injection E as E.
      destruct (IH (c2 :: w) s s' E) as [-> ->]. auto. Qed.
Lemma showVec_inj v w : getStringFromVec v = getStringFromVec w -> v = w.
Proof. unfold getStringFromVec. intros E. cbn [app] in E. injection E as E. destruct (showBits_close v w [] [] E) as [-> _]. reflexivity. Qed.

Definition rect (m : nat) (M : mat) : Prop := Forall (fun r : vec => List.length r = m) M.
Lemma showRow_ok m r : List.length r = m -> showRow m r = Ok ("["%char :: showBits r ++ ["]"%char]).
Proof. intros <-. unfold showRow. now rewrite Nat.leb_refl, firstn_all. Qed.
Fixpoint rowsText (M : mat) : text :=
  match M with [] => [] | r :: M' => ("["%char :: showBits r ++ ["]"%char]) ++ (match M' with [] => [] | _ => [","%char] end) ++ [nl] ++ rowsText M' end.
Lemma showRows_ok m M : rect m M -> showRows m M = Ok (rowsText M).
Proof. induction 1 as [|r M Hr HM IH]; [reflexivity|]. cbn [showRows rowsText]. rewrite (showRow_ok m r Hr). cbn [bind]. rewrite IH. reflexivity. Qed.
Lemma showRows_short m M : ~ Forall (fun r : vec => m <= List.length r) M -> showRows m M = Err OutOfRange.
Proof. induction M as [|r M IH]; intros H; [exfalso; apply H; constructor|]. cbn [showRows]. unfold showRow.
  destruct (Nat.leb_spec m (List.length r)); [|reflexivity]. cbn [bind]. rewrite IH; [reflexivity|]. intros HM. apply H. now constructor. Qed.
Lemma rowsText_inj M : forall N s s', List.length M = List.length N -> rowsText M ++ s = rowsText N ++ s' -> M = N.
Proof. induction M as [|r M IH]; intros [|q N] s s' Hl E; try discriminate Hl; [reflexivity|]. cbn [rowsText] in E. rewrite <- !app_assoc in E. cbn [app] in E.
  injection E as E. rewrite <- !app_assoc in E. cbn [app] in E. apply showBits_close in E. destruct E as [-> E]. f_equal.
  cbn in Hl. injection Hl as Hl. destruct M, N; try discriminate Hl; [reflexivity|]. cbn [app] in E. injection E as E. exact (IH (_ :: N) s s' Hl (f_equal (cons "["%char) E)). Qed.
Lemma showNat_split n n' s s' : no_digit s -> no_digit s' -> showNat n ++ s = showNat n' ++ s' -> n = n' /\ s = s'.
Proof. intros H H' E. destruct (digits_spec _ _ (showNat_digits n)) as (H1 & _ & H3). destruct (digits_spec _ _ (showNat_digits n')) as (H1' & _ & H3').
  pose proof (span_app _ _ H1 H) as S1. pose proof (span_app _ _ H1' H') as S2. rewrite E, S2 in S1. injection S1 as S1 S1'.
  split; [|auto]. rewrite S1 in H3'. lia. Qed.
Lemma no_digit_x s : no_digit ("x"%char :: s). Proof. now apply hd_no_digit. Qed.
Lemma no_digit_m s : no_digit ("m"%char :: s). Proof. now apply hd_no_digit. Qed.

Lemma showMat_ok m M : rect m M -> M <> [] -> getStringFromMat M =
  Ok (showNat (List.length M) ++ ["x"%char] ++ showNat m ++ list_ascii_of_string "matrix [" ++ [nl] ++ rowsText M ++ ["]"%char]).
Proof. intros HM N. destruct M as [|r M]; [congruence|]. unfold getStringFromMat. assert (Hr : List.length r = m) by (inversion HM; auto).
  rewrite Hr, (showRows_ok m) by auto. reflexivity. Qed.
Lemma showMat_inj m m' M N : rect m M -> rect m' N -> getStringFromMat M = getStringFromMat N -> M = N.
Proof. intros HM HN E.
  assert (Hne : forall m0 M0 X, rect m0 M0 -> M0 <> [] -> getStringFromMat M0 = Ok ("["%char :: X) -> False).
  { intros m0 M0 X H0 N0 E0. rewrite (showMat_ok m0 M0 H0 N0) in E0. injection E0 as E0.
    destruct (digits_hd _ _ (showNat_digits (List.length M0))) as (c & t' & Ec & Hc). rewrite Ec in E0. injection E0 as -> _. discriminate Hc. }
  destruct M as [|r M], N as [|q N]; [reflexivity | | |].
  - exfalso. symmetry in E. eapply (Hne m' (q :: N)); eauto; discriminate.
  - exfalso. eapply (Hne m (r :: M)); eauto; discriminate.
  - rewrite (showMat_ok m (r :: M)), (showMat_ok m' (q :: N)) in E by (auto; discriminate). injection E as E.
    apply showNat_split in E; [|apply no_digit_x | apply no_digit_x]. destruct E as [El E]. cbn [app] in E. injection E as E.
    apply showNat_split in E; [|apply no_digit_m | apply no_digit_m]. destruct E as [_ E]. injection E as E.
    exact (rowsText_inj (r :: M) (q :: N) ["]"%char] ["]"%char] El (f_equal (cons "["%char) E)). Qed.

(** the printed matrix read as a file *)
Lemma no_number_open s : no_number ("["%char :: s).
Proof. intros b t z s' Hb Ht E. destruct (numeral_hd t z Ht) as (c & t' & -> & Hc). destruct b as [|x b].
  - injection E as <- _. inversion Ht as [t0 z0 H0 | t0 z0 H0 | t0 z0 H0]. destruct (digits_hd _ _ H0) as (c & t1 & E1 & Hd). injection E1 as <- _. discriminate Hd.
  - injection E as <- _. apply Forall_inv in Hb. cbn in Hb. destruct Hb as [Hb | [Hb | [Hb | [Hb | [Hb | []]]]]]; discriminate Hb. Qed.
Lemma no_number_close s : no_number ("]"%char :: s).
Proof. intros b t z s' Hb Ht E. destruct (numeral_hd t z Ht) as (c & t' & -> & Hc). destruct b as [|x b].
  - injection E as <- _. inversion Ht as [t0 z0 H0 | t0 z0 H0 | t0 z0 H0]. destruct (digits_hd _ _ H0) as (c & t1 & E1 & Hd). injection E1 as <- _. discriminate Hd.
  - injection E as <- _. apply Forall_inv in Hb. cbn in Hb. destruct Hb as [Hb | [Hb | [Hb | [Hb | [Hb | []]]]]]; discriminate Hb. Qed.
Lemma no_number_comma s : no_number (","%char :: s).
Proof. intros b t z s' Hb Ht E. destruct (numeral_hd t z Ht) as (c & t' & -> & Hc). destruct b as [|x b].
  - injection E as <- _. inversion Ht as [t0 z0 H0 | t0 z0 H0 | t0 z0 H0]. destruct (digits_hd _ _ H0) as (c & t1 & E1 & Hd). injection E1 as <- _. discriminate Hd.
  - injection E as <- _. apply Forall_inv in Hb. cbn in Hb. destruct Hb as [Hb | [Hb | [Hb | [Hb | [Hb | []]]]]]; discriminate Hb. Qed.
Lemma no_number_x s : no_number ("x"%char :: s).
Proof. intros b t z s' Hb Ht E. destruct (numeral_hd t z Ht) as (c & t' & -> & Hc). destruct b as [|x b].
  - injection E as <- _. inversion Ht as [t0 z0 H0 | t0 z0 H0 | t0 z0 H0]. destruct (digits_hd _ _ H0) as (c & t1 & E1 & Hd). injection E1 as <- _. discriminate Hd.
  - injection E as <- _. apply Forall_inv in Hb. cbn in Hb. destruct Hb as [Hb | [Hb | [Hb | [Hb | [Hb | []]]]]]; discriminate Hb. Qed.
Lemma row_nothing g : one_line g -> no_number g -> readRow g = [].
Proof. intros H1 H2. change g with ([] ++ g). apply row_stops; auto. constructor. constructor. Qed.
(** rows that hold nothing *)
Lemma rows_nothing M : forall s, map readRow (getlines (rowsText M ++ s)) = repeat [] (List.length M) ++ map readRow (getlines s).
Proof. induction M as [|r M IH]; intros s; [reflexivity|].
  set (l := ("["%char :: showBits r ++ ["]"%char]) ++ (match M with [] => [] | _ => [","%char] end)).
  assert (Hl : one_line l).
  { apply one_line_app; [|destruct M; [intros [] | intros [E | []]; discriminate E]].
    intros [E | Hi]; [discriminate E|]. apply in_app_or in Hi. destruct Hi as [Hi | [E | []]]; [now apply showBits_one_line in Hi | discriminate E]. }
  replace (rowsText (r :: M) ++ s) with (l ++ nl :: (rowsText M ++ s)) by (unfold l; cbn [rowsText]; rewrite <- !app_assoc; reflexivity).
  rewrite (getlines_line l) by auto. cbn [map List.length repeat app]. rewrite IH. rewrite (row_nothing l); [reflexivity | auto | apply no_number_open]. Qed.
Lemma header_one_line a m : digits a (Z.of_nat m) -> forall n, one_line (a ++ ["x"%char] ++ showNat n ++ list_ascii_of_string "matrix [").
Proof. intros H n. apply one_line_app; [now apply digits_one_line in H|]. apply one_line_app; [intros [E | []]; discriminate E|].
  apply one_line_app; [exact (digits_one_line _ _ (showNat_digits n))|]. intros Hi. cbn in Hi. repeat (destruct Hi as [E | Hi]; [discriminate E|]); destruct Hi. Qed.
Lemma print_import m M t : rect m M -> M <> [] -> fits (Z.of_nat (List.length M)) -> getStringFromMat M = Ok t ->
  importGf2MatrixFromFile (Some t) = Ok ([true] :: repeat [] (S (List.length M))).
Proof. intros HM N Hf E. rewrite (showMat_ok m M HM N) in E. injection E as <-. unfold importGf2MatrixFromFile. f_equal.
  set (h := showNat (List.length M) ++ ["x"%char] ++ showNat m ++ list_ascii_of_string "matrix [").
  assert (Hh : one_line h) by (exact (header_one_line _ _ (showNat_digits _) m)).
  replace (showNat _ ++ _) with (h ++ nl :: (rowsText M ++ ["]"%char])) by (unfold h; rewrite <- !app_assoc; reflexivity).
  rewrite (getlines_line h) by auto. cbn [map]. f_equal.
  - unfold h. pose proof (showNat_digits (List.length M)) as Hd.
    replace (showNat (List.length M) ++ ["x"%char] ++ showNat m ++ list_ascii_of_string "matrix [") with
      (([] ++ showNat (List.length M) ++ []) ++ ("x"%char :: showNat m ++ list_ascii_of_string "matrix [")) by (cbn [app]; now rewrite app_nil_r).
    replace [true] with [negb (Z.of_nat (List.length M) =? 0)%Z].
    2:{ destruct M; [congruence|]. reflexivity. }
    apply row_stops; [| |apply no_number_x].
    + constructor; [constructor | now constructor | auto | intros d s' _ Ed; discriminate Ed | constructor; constructor].
    + unfold h in Hh. intros Hi. apply Hh. apply in_or_app. now right.
  - rewrite rows_nothing. cbn [List.length repeat]. rewrite repeat_cons. reflexivity. Qed.
