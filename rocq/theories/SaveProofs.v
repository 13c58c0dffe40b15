(** * SaveProofs: reading the output of the distance script; saved matrices *)
From Coq Require Import List Arith Bool Ascii String ZArith Lia.
From Verif Require Import SaveModel TextProofs.
Import ListNotations.
Local Open Scope nat_scope.
Notation tx := list_ascii_of_string.

(** ** Specification *)
(** a line of the output (without its newline) and what it says: a comment, a line of blanks, "key = value", and this with a comment *)
Inductive info_line : text -> option (text * text) -> Prop :=
| il_comment s : info_line ("#"%char :: s) None
| il_blank s : blanks s -> info_line s None
| il_pair k v : ~ In "="%char k -> ~ In "="%char v -> ~ In "#"%char k -> ~ In "#"%char v -> info_line (k ++ tx " = " ++ v) (Some (k, v))
| il_pair_comment k v c : ~ In "="%char k -> ~ In "="%char v -> ~ In "#"%char k -> ~ In "#"%char v -> ~ In "#"%char c ->
    info_line (k ++ tx " = " ++ v ++ "#"%char :: c) (Some (k, v)).
(** the last line that says something of k says v *)
Definition bound (bs : list (option (text * text))) (k v : text) : Prop :=
  exists b1 b2, bs = b1 ++ Some (k, v) :: b2 /\ forall v', ~ In (Some (k, v')) b2.
Definition unbound (bs : list (option (text * text))) (k : text) : Prop := forall v, ~ In (Some (k, v)) bs.
(** a number with blanks around *)
Definition number (s : text) (z : Z) : Prop := exists b t b', s = b ++ t ++ b' /\ blanks b /\ numeral t z /\ blanks b'.

(** ** Splitting a line *)
Lemma in_cons_no {A} (x c : A) s : ~ In x (c :: s) -> c <> x /\ ~ In x s.
Proof. intros H. split; [intros ->; apply H; now left | intros Hi; apply H; now right]. Qed.
Lemma in_app_no {A} (x : A) a b : ~ In x (a ++ b) -> ~ In x a /\ ~ In x b.
Proof. intros H. split; intros Hi; apply H; apply in_or_app; auto. Qed.
Lemma app_no_in {A} (x : A) a b : ~ In x a -> ~ In x b -> ~ In x (a ++ b).
Proof. intros H1 H2 Hi. apply in_app_or in Hi. tauto. Qed.

Definition sep_here (c : ascii) (s : text) : bool :=
  match s with d :: e :: _ => Ascii.eqb c " " && Ascii.eqb d "=" && Ascii.eqb e " " | _ => false end.
Lemma split_eq_cons c s : split_eq (c :: s) = if sep_here c s then [] :: split_eq (skipn 2 s)
  else match split_eq s with p :: ps => (c :: p) :: ps | [] => [] end.
Proof. destruct s as [|d [|e r]]; reflexivity. Qed.
Lemma sep_here_no c s : (match s with d :: _ => d <> "="%char | [] => True end) -> sep_here c s = false.
Proof. destruct s as [|d [|e r]]; try reflexivity. intros H. cbn. apply Ascii.eqb_neq in H. rewrite H. now rewrite andb_false_r. Qed.
Lemma split_eq_none s : ~ In "="%char s -> split_eq s = [s].
Proof. induction s as [|c s IH]; intros H; [reflexivity|]. apply in_cons_no in H. destruct H as [Hc Hs]. rewrite split_eq_cons, sep_here_no, IH by (auto; destruct s; auto; apply in_cons_no in Hs; tauto).
  reflexivity. Qed.
Lemma split_eq_pair k v : ~ In "="%char k -> ~ In "="%char v -> split_eq (k ++ tx " = " ++ v) = [k; v].
Proof. intros Hk Hv. induction k as [|c k IH].
  - cbn [app tx list_ascii_of_string]. rewrite split_eq_cons. change (sep_here " " ("="%char :: " "%char :: v)) with true. cbn [skipn]. now rewrite split_eq_none.
  - apply in_cons_no in Hk. destruct Hk as [Hc Hk]. cbn [app]. rewrite split_eq_cons, sep_here_no, IH; auto.
    destruct k as [|d k]; [cbn; discriminate|]. cbn. apply in_cons_no in Hk. tauto. Qed.

Lemma before_last_none s : ~ In "#"%char s -> before_last s = None.
Proof. induction s as [|c s IH]; intros H; [reflexivity|]. apply in_cons_no in H. cbn. rewrite IH by tauto. unfold hash.
  destruct (Ascii.eqb_spec c "#"); tauto. Qed.
Lemma before_last_some p c : ~ In "#"%char c -> before_last (p ++ "#"%char :: c) = Some p.
Proof. intros H. induction p as [|x p IH]; cbn; [now rewrite before_last_none | now rewrite IH]. Qed.
Lemma nl_no_hash : ~ In "#"%char [nl]. Proof. intros [E | []]; discriminate E. Qed.

(** what a line does, with whatever last character *)
Definition proc (d : py pydict) (line : text) : py pydict :=
  pbind d (fun d => match split_eq (cut line) with [k; v] => Ret (dset d k (VStr v)) | _ => Raise ValueError end).
Definition counts (line : text) : bool := negb (startswith_hash line) && nonblank line.
Definition bind_line (d : pydict) (b : option (text * text)) : pydict := match b with Some (k, v) => dset d k (VStr v) | None => d end.
Definition proc_if (d : py pydict) (line : text) : py pydict := if counts line then proc d line else d.

Lemma blanks_nonblank s : blanks s -> nonblank s = false.
Proof. induction 1 as [|c s Hc Hs IH]; [reflexivity|]. cbn. rewrite (blank_space c Hc). exact IH. Qed.
Lemma nonblank_app a b : nonblank (a ++ b) = nonblank a || nonblank b.
Proof. apply existsb_app. Qed.
Lemma counts_pair k r : ~ In "#"%char k -> counts (k ++ tx " = " ++ r) = true.
Proof. intros H. unfold counts. rewrite !nonblank_app. replace (nonblank (tx " = ")) with true by reflexivity. rewrite orb_true_r.
  destruct k as [|c k]; [reflexivity|]. cbn. unfold hash. apply in_cons_no in H. destruct (Ascii.eqb_spec c "#"); tauto. Qed.
Lemma proc_line l b x d : info_line l b -> isspace x = true -> x <> "#"%char -> proc_if (Ret d) (l ++ [x]) = Ret (bind_line d b).
Proof. intros H Hx Hh. unfold proc_if.
  assert (Hxs : ~ In "#"%char [x]) by (intros [E | []]; congruence).
  destruct H as [s | s Hs | k v Hk Hv Gk Gv | k v c Hk Hv Gk Gv Gc].
  - reflexivity.
  - unfold counts. rewrite nonblank_app, blanks_nonblank by auto. cbn. now rewrite Hx, andb_false_r.
  - rewrite <- !app_assoc. rewrite counts_pair by auto. unfold proc. cbn [pbind]. unfold cut. rewrite before_last_none.
    + rewrite !app_assoc. rewrite removelast_last. rewrite <- app_assoc. now rewrite split_eq_pair.
    + apply app_no_in; auto. apply app_no_in; [|now apply app_no_in]. cbn. intros [E | [E | [E | []]]]; discriminate E.
  - rewrite <- !app_assoc. rewrite counts_pair by auto. unfold proc. cbn [pbind]. unfold cut.
    replace (k ++ tx " = " ++ v ++ ("#"%char :: c) ++ [x]) with ((k ++ tx " = " ++ v) ++ "#"%char :: (c ++ [x])) by (rewrite <- !app_assoc; reflexivity).
    rewrite before_last_some; [now rewrite split_eq_pair | now apply app_no_in]. Qed.

(** a last line without a newline and without a comment loses a character of its value *)
Lemma proc_last k v x d : ~ In "="%char k -> ~ In "="%char v -> ~ In "#"%char k -> ~ In "#"%char v -> x <> "#"%char ->
  proc_if (Ret d) (k ++ tx " = " ++ v ++ [x]) = Ret (bind_line d (Some (k, v))).
Proof. intros Hk Hv Gk Gv Hx. unfold proc_if. rewrite counts_pair by auto. unfold proc. cbn [pbind]. unfold cut. rewrite before_last_none.
  - rewrite !app_assoc. rewrite removelast_last. rewrite <- app_assoc. now rewrite split_eq_pair.
  - apply app_no_in; auto. apply app_no_in; [|apply app_no_in; auto; intros [E | []]; congruence]. cbn. intros [E | [E | [E | []]]]; discriminate E. Qed.

(** ** The file *)
Lemma pylines_line l s : one_line l -> pylines (l ++ nl :: s) = (l ++ [nl]) :: pylines s.
Proof. induction l as [|c l IH]; intros H; cbn; [reflexivity|]. destruct (Ascii.eqb_spec c nl) as [-> | N]; [exfalso; apply H; now left|].
  rewrite IH; [reflexivity|]. intros Hi. apply H. now right. Qed.
Lemma pylines_last l : one_line l -> l <> [] -> pylines l = [l].
Proof. induction l as [|c l IH]; intros H N; [congruence|]. cbn. destruct (Ascii.eqb_spec c nl) as [-> | Nc]; [exfalso; apply H; now left|].
  destruct l as [|d l]; [reflexivity|]. rewrite IH; [reflexivity | intros Hi; apply H; now right | discriminate]. Qed.
Lemma pylines_unlines ls s : Forall one_line ls -> pylines (unlines ls ++ s) = map (fun l => l ++ [nl]) ls ++ pylines s.
Proof. induction 1 as [|l ls Hl Hls IH]; [reflexivity|]. unfold unlines in *. cbn [map concat]. rewrite <- !app_assoc. cbn [app].
  rewrite (pylines_line l) by auto. now rewrite IH. Qed.
Lemma fold_filter (L : list text) : forall d, fold_left proc (filter counts L) d = fold_left proc_if L d.
Proof. induction L as [|l L IH]; intros d; [reflexivity|]. cbn. unfold proc_if at 2. destruct (counts l); cbn; apply IH. Qed.
Lemma read_info_eq s : read_info s = fold_left proc_if (pylines s) (Ret []).
Proof. unfold read_info. rewrite <- fold_filter. reflexivity. Qed.
Lemma fold_lines ls bs : Forall2 info_line ls bs -> forall d, fold_left proc_if (map (fun l => l ++ [nl]) ls) (Ret d) = Ret (fold_left bind_line bs d).
Proof. induction 1 as [|l b ls bs Hl Hls IH]; intros d; [reflexivity|]. cbn [map fold_left]. rewrite (proc_line l b nl d Hl); [apply IH | reflexivity | discriminate]. Qed.
Lemma read_lines ls bs : Forall2 info_line ls bs -> Forall one_line ls -> read_info (unlines ls) = Ret (fold_left bind_line bs []).
Proof. intros H Ho. rewrite read_info_eq. rewrite <- (app_nil_r (unlines ls)), pylines_unlines by auto. cbn [pylines]. rewrite app_nil_r. now apply fold_lines. Qed.
Lemma read_lines_last ls bs k v x : Forall2 info_line ls bs -> Forall one_line ls -> one_line (k ++ tx " = " ++ v ++ [x]) ->
  ~ In "="%char k -> ~ In "="%char v -> ~ In "#"%char k -> ~ In "#"%char v -> x <> "#"%char ->
  read_info (unlines ls ++ k ++ tx " = " ++ v ++ [x]) = Ret (fold_left bind_line (bs ++ [Some (k, v)]) []).
Proof. intros H Ho Hl Hk Hv Gk Gv Hx. rewrite read_info_eq, pylines_unlines by auto. rewrite (pylines_last (k ++ _)); [|auto | destruct k; discriminate].
  rewrite fold_left_app, (fold_lines ls bs) by auto. rewrite fold_left_app. cbn [fold_left]. now rewrite proc_last. Qed.

(** ** The dictionary *)
Lemma text_eqb_spec a b : reflect (a = b) (text_eqb a b).
Proof. unfold text_eqb. destruct (list_eq_dec ascii_dec a b); now constructor. Qed.
Lemma dget_dset d k v k' : dget (dset d k v) k' = if text_eqb k k' then Some v else dget d k'.
Proof. induction d as [|[a b] d IH]; unfold dget in *; cbn [dset find fst snd].
  - destruct (text_eqb k k'); reflexivity.
  - destruct (text_eqb_spec a k) as [-> | N].
    + cbn [find fst snd]. destruct (text_eqb k k'); reflexivity.
    + cbn [find fst snd]. destruct (text_eqb_spec a k') as [-> | N'].
      * destruct (text_eqb_spec k k'); [congruence | reflexivity].
      * exact IH. Qed.
Lemma dget_unbound bs k : unbound bs k -> forall d, dget (fold_left bind_line bs d) k = dget d k.
Proof. intros H. induction bs as [|b bs IH]; intros d; [reflexivity|]. cbn [fold_left]. rewrite IH; [|intros v Hi; apply (H v); now right].
  destruct b as [[k' v]|]; [|reflexivity]. cbn. rewrite dget_dset. destruct (text_eqb_spec k' k) as [-> | N]; [|reflexivity]. exfalso. apply (H v). now left. Qed.
Lemma dget_bound bs k v d : bound bs k v -> dget (fold_left bind_line bs d) k = Some (VStr v).
Proof. intros (b1 & b2 & -> & H). rewrite fold_left_app. cbn [fold_left]. rewrite dget_unbound by exact H. cbn. rewrite dget_dset.
  destruct (text_eqb_spec k k); congruence. Qed.

Lemma pyint_number s z : number s z -> pyint s = Some z.
Proof. intros (b & t & b' & -> & Hb & Ht & Hb'). unfold pyint. rewrite blanks_skip by auto. destruct (numeral_hd t z Ht) as (c & t' & E & Hc).
  replace (skipws (t ++ b')) with (t ++ b') by (rewrite E; cbn; now rewrite Hc). clear E Hc c t'.
  assert (Hn : no_digit b'). { apply hd_no_digit. destruct Hb' as [|x b' Hx _]; [exact I|]. destruct (isdigit x) eqn:Ed; [|auto].
    apply isdigit_nospace in Ed. rewrite (blank_space x Hx) in Ed. discriminate. }
  pose proof (blanks_nonblank b' Hb') as Hnb.
  destruct Ht as [t z Ht | t z Ht | t z Ht]; pose proof (digits_spec t z Ht) as (H1 & H2 & H3).
  - destruct (digits_hd t z Ht) as (c & t' & -> & Hc). destruct (isdigit_sign c Hc) as [S1 S2]. cbn [app]. rewrite S1, S2.
    change (c :: t' ++ b') with ((c :: t') ++ b'). rewrite span_app by auto. now rewrite Hnb, H3.
  - cbn [app]. change (Ascii.eqb "+" "-") with false. change (Ascii.eqb "+" "+") with true. cbn match. rewrite span_app by auto.
    destruct t; [congruence|]. now rewrite Hnb, H3.
  - cbn [app]. change (Ascii.eqb "-" "-") with true. cbn match. rewrite span_app by auto.
    destruct t; [congruence|]. now rewrite Hnb, H3. Qed.
Lemma int_entry_ok k d s z : dget d (tx k) = Some (VStr s) -> number s z -> int_entry k d = Ret (dset d (tx k) (VInt z)).
Proof. intros E H. unfold int_entry. rewrite E, (pyint_number s z H). reflexivity. Qed.
Lemma int_entry_none k d : dget d (tx k) = None -> int_entry k d = Raise KeyError.
Proof. intros E. unfold int_entry. now rewrite E. Qed.

(** ** Saved matrices *)
Lemma showInt_numeral z : numeral (showInt z) z.
Proof. unfold showInt. destruct (Z.ltb_spec z 0) as [H | H].
  - pose proof (num_minus _ _ (showNat_digits (Z.to_nat (- z)))) as E. rewrite Z2Nat.id in E by lia. now rewrite Z.opp_involutive in E.
  - pose proof (num_bare _ _ (showNat_digits (Z.to_nat z))) as E. now rewrite Z2Nat.id in E by lia. Qed.
Lemma numeral_one_line t z : numeral t z -> one_line t.
Proof. intros [t0 z0 H | t0 z0 H | t0 z0 H]; pose proof (digits_one_line _ _ H) as Ho; [exact Ho | |]; intros [E | Hi]; (discriminate E || auto). Qed.
Lemma savetxtRow_line r : one_line (savetxtRow r).
Proof. induction r as [|z r IH]; [intros []|]. cbn [savetxtRow]. destruct r as [|y r]; [exact (numeral_one_line _ _ (showInt_numeral z))|].
  apply one_line_app; [exact (numeral_one_line _ _ (showInt_numeral z))|]. apply one_line_app; [intros [E | []]; discriminate E | exact IH]. Qed.
Lemma savetxtRow_text b r : blanks b -> Forall fits r -> row_text (b ++ savetxtRow r) (map (fun z => negb (z =? 0)%Z) r).
Proof. intros Hb Hf. revert b Hb. induction Hf as [|z r Hz Hr IH]; intros b Hb; [cbn; rewrite app_nil_r; now constructor|].
  cbn [savetxtRow map]. destruct r as [|y r].
  - replace (b ++ showInt z) with (b ++ showInt z ++ []) by now rewrite app_nil_r. constructor; auto; [apply showInt_numeral | intros d s' _ E; discriminate E | constructor; constructor].
  - constructor; auto; [apply showInt_numeral | now apply hd_no_digit |]. apply IH. constructor; [now left | constructor]. Qed.
Lemma savetxt_unlines M : savetxt M = unlines (map savetxtRow M).
Proof. unfold savetxt, unlines. f_equal. rewrite map_map. reflexivity. Qed.
