(* Property C71: reading alist files. *)
From Coq Require Import List Arith Bool Lia.
From Verif Require Import Lin AnalogModel AlistModel.
Import ListNotations.

(* ---- specification: the files ---- *)
(* the places of the ones of a row, counted from 1 *)
Definition places (v : vec) : list nat := map S (filter (fun i => nth i v false) (seq 0 (length v))).
(* the line of a row: its places, filled up with zeros to [pad] entries (as alist files with rows of different weight are; pad = 0: not filled up) *)
Definition row_line (pad : nat) (v : vec) : list word := map Num (places v ++ repeat 0 (pad - length (places v))).
(* the dimensions, three lines with weights, the rows, then whatever follows (the columns) *)
Definition alist_file (n pad : nat) (H : mat) (l2 l3 l4 : list word) (rest : list (list word)) : list (list word) :=
  [map Num [length H; n]; l2; l3; l4] ++ map (row_line pad) H ++ rest.

(* ---- proofs ---- *)
Lemma set_nth_len {A} i (a : A) l : length (set_nth i a l) = length l.
Proof. revert i. induction l as [|x l IH]; intros [|i]; simpl; auto. Qed.
Lemma nth_set {A} i j (a d : A) l : nth j (set_nth i a l) d = if (i =? j) && (j <? length l) then a else nth j l d.
Proof. revert i j. induction l as [|x l IH]; intros [|i] [|j]; simpl; auto; [now rewrite andb_false_r|]. rewrite IH. reflexivity. Qed.
Lemma put_spec n cols : forall row r, length row = n -> put n cols row = Ret r ->
  length r = n /\ forall j, nth j r false = nth j row false || existsb (fun c => match col_index n c with Some k => k =? j | None => false end) cols.
Proof.
  induction cols as [|c cols IH]; intros row r L E; cbn [put] in E.
  - injection E as <-. split; auto. intros j. simpl. now rewrite orb_false_r.
  - destruct (col_index n c) as [k|] eqn:C; [|discriminate]. destruct (IH (set_nth k true row) r) as [L' N]; auto; [now rewrite set_nth_len|]. split; auto.
    intros j. rewrite N. cbn [existsb]. rewrite C, nth_set. destruct (Nat.eqb_spec k j) as [->|]; cbn [andb orb]; auto.
    assert (K : j < n). { destruct c; cbn [col_index] in C; [destruct (Nat.eqb_spec n 0); [discriminate|injection C as <-; lia]|]. destruct (Nat.ltb_spec c n); [injection C as <-; auto|discriminate]. }
    rewrite L. apply Nat.ltb_lt in K. rewrite K. simpl. now rewrite orb_true_r.
Qed.
Lemma put_ok n cols : forall row, Forall (fun c => col_index n c <> None) cols -> exists r, put n cols row = Ret r.
Proof. induction cols as [|c cols IH]; intros row F; cbn [put]; eauto. inversion F; subst. destruct (col_index n c); [auto|contradiction]. Qed.
Lemma digits_num l : digits (map Num l) = l.
Proof. induction l as [|x l IH]; simpl; [auto|now rewrite IH]. Qed.
Lemma places_in v c : In c (places v) <-> exists j, c = S j /\ nth j v false = true.
Proof.
  unfold places. rewrite in_map_iff. split.
  - intros (j & <- & I). apply filter_In in I. exists j. tauto.
  - intros (j & -> & T). exists j. split; auto. apply filter_In. split; auto. apply in_seq. destruct (Nat.lt_ge_cases j (length v)); [lia|]. rewrite nth_overflow in T by auto. discriminate.
Qed.
Lemma row_read n pad v : 0 < n -> length v = n ->
  put n (digits (row_line pad v)) (vzero n) = Ret (if length (places v) <? pad then set_nth (n - 1) true v else v).
Proof.
  intros Hn L. unfold row_line. rewrite digits_num.
  assert (F : Forall (fun c => col_index n c <> None) (places v ++ repeat 0 (pad - length (places v)))).
  { apply Forall_app. split; apply Forall_forall; intros c I.
    - apply places_in in I as (j & -> & T). cbn [col_index]. destruct (Nat.ltb_spec j n); [discriminate|]. rewrite nth_overflow in T by lia. discriminate.
    - apply repeat_spec in I. subst c. cbn [col_index]. destruct (Nat.eqb_spec n 0); [lia|discriminate]. }
  destruct (put_ok n _ (vzero n) F) as [r E]. rewrite E. f_equal. destruct (put_spec n _ (vzero n) r (vzero_length n) E) as [Lr N].
  apply (vec_ext n); auto; [destruct (_ <? _); rewrite ?set_nth_len; auto|]. intros j Hj. rewrite N, nth_vzero, orb_false_l, existsb_app.
  assert (P : existsb (fun c => match col_index n c with Some k => k =? j | None => false end) (places v) = nth j v false).
  { apply eq_true_iff_eq. rewrite existsb_exists. split.
    - intros (c & I & T). apply places_in in I as (k & -> & Tk). cbn [col_index] in T. destruct (k <? n); [|discriminate]. apply Nat.eqb_eq in T. now subst.
    - intros T. exists (S j). split; [apply places_in; eauto|]. cbn [col_index]. apply Nat.ltb_lt in Hj. now rewrite Hj, Nat.eqb_refl. }
  rewrite P. destruct (Nat.ltb_spec (length (places v)) pad) as [G|G].
  - rewrite nth_set, L. assert (R : existsb (fun c => match col_index n c with Some k => k =? j | None => false end) (repeat 0 (pad - length (places v))) = (n - 1 =? j)).
    { destruct (pad - length (places v)) as [|d] eqn:D; [lia|]. cbn [repeat existsb col_index]. destruct (Nat.eqb_spec n 0); [lia|]. destruct (n - 1 =? j) eqn:Q; auto. cbn [orb]. clear - Q n0. induction d as [|d IH]; auto. cbn [repeat existsb col_index]. destruct (Nat.eqb_spec n 0); [lia|]. now rewrite Q, IH. }
    rewrite R. apply Nat.ltb_lt in Hj. rewrite Hj, andb_true_r. destruct (n - 1 =? j), (nth j v false); auto.
  - replace (pad - length (places v)) with 0 by lia. simpl. now rewrite orb_false_r.
Qed.
Lemma read_map n lines pad (H : mat) : forall i, 0 < n -> wf n H -> (forall k l, nth_error (map (row_line pad) H) k = Some l -> nth_error lines (i + k + 4) = Some l) ->
  read_rows lines n i (length H) = Ret (map (fun v => if length (places v) <? pad then set_nth (n - 1) true v else v) H).
Proof.
  induction H as [|v H IH]; intros i Hn W N; [reflexivity|]. apply Forall_cons_iff in W as [Lv W']. cbn [length read_rows map].
  rewrite <- (Nat.add_0_r i) at 1. rewrite (N 0 (row_line pad v)) by reflexivity. rewrite row_read by auto.
  rewrite IH; auto. intros k l E. rewrite Nat.add_succ_comm. apply N. exact E.
Qed.
Lemma filter_all {A} (f : A -> bool) l : (forall x, In x l -> f x = true) -> filter f l = l.
Proof. induction l as [|x l IH]; simpl; intros F; auto. rewrite F, IH; auto. Qed.
Lemma places_length v : places v <> [] <-> exists j, nth j v false = true.
Proof. split; [intros N; destruct (places v) as [|c l] eqn:E; [contradiction|]; assert (I : In c (places v)) by (rewrite E; left; auto); apply places_in in I as (j & _ & T); eauto|intros [j T] E; assert (I : In (S j) (places v)) by (apply places_in; eauto); rewrite E in I; destruct I]. Qed.

Lemma skipn_next {A} (l : list A) : forall i x xs, skipn i l = x :: xs -> skipn (S i) l = xs.
Proof. induction l as [|a l IH]; intros [|i] x xs E; try discriminate; [now injection E|]. cbn [skipn] in *. now apply (IH i x). Qed.
(* ---- C71 ---- *)
(* A file whose rows are filled up with zeros (or not): the matrix is read, but in every row that was filled up the last entry becomes 1. *)
Theorem C71_read n pad H l2 l3 l4 rest : 0 < n -> wf n H -> l2 <> [] -> l3 <> [] -> l4 <> [] ->
  (0 < pad \/ forall v, In v H -> exists j, nth j v false = true) ->
  alist2numpy (alist_file n pad H l2 l3 l4 rest) = Ret (map (fun v => if length (places v) <? pad then set_nth (n - 1) true v else v) H).
Proof.
  intros Hn W N2 N3 N4 P. unfold alist2numpy, alist_file.
  assert (E : loadtxt ([map Num [length H; n]; l2; l3; l4] ++ map (row_line pad) H ++ rest) = [map Num [length H; n]; l2; l3; l4] ++ map (row_line pad) H ++ loadtxt rest).
  { unfold loadtxt. rewrite !filter_app. cbn [map filter]. destruct l2; [contradiction|]. destruct l3; [contradiction|]. destruct l4; [contradiction|]. do 2 f_equal.
    apply filter_all. intros l I. apply in_map_iff in I as (v & <- & I). unfold row_line. destruct P as [P|P].
    - destruct (places v); cbn [app length map]; auto. destruct (pad - 0) eqn:D; [lia|]. reflexivity.
    - specialize (P v I). apply places_length in P. destruct (places v); [contradiction|reflexivity]. }
  rewrite E. cbn [map app nth_error int_of]. apply (read_map n _ pad); auto. intros k l K. rewrite Nat.add_comm, Nat.add_0_l. cbn [plus nth_error].
  rewrite nth_error_app1; auto. apply nth_error_Some. congruence.
Qed.
Print Assumptions C71_read.
(* Not filled up, every row with an entry: read exactly. *)
Theorem C71_exact n H l2 l3 l4 rest : 0 < n -> wf n H -> l2 <> [] -> l3 <> [] -> l4 <> [] -> (forall v, In v H -> exists j, nth j v false = true) ->
  alist2numpy (alist_file n 0 H l2 l3 l4 rest) = Ret H.
Proof. intros. rewrite C71_read by auto. f_equal. rewrite <- (map_id H) at 2. apply map_ext. intros v. reflexivity. Qed.
Print Assumptions C71_exact.
(* A blank line anywhere changes nothing. *)
Theorem C71_blank a b : alist2numpy (a ++ [] :: b) = alist2numpy (a ++ b).
Proof. unfold alist2numpy, loadtxt. now rewrite !filter_app. Qed.
Print Assumptions C71_blank.
(* Filled up: read exactly if and only if every row that was filled up has its last entry set. *)
Theorem C71_padded_iff n pad H l2 l3 l4 rest : 0 < n -> wf n H -> l2 <> [] -> l3 <> [] -> l4 <> [] -> 0 < pad ->
  (alist2numpy (alist_file n pad H l2 l3 l4 rest) = Ret H <-> forall v, In v H -> length (places v) < pad -> nth (n - 1) v false = true).
Proof.
  intros Hn W N2 N3 N4 P. rewrite C71_read by auto. assert (ST : forall v : vec, length v = n -> (set_nth (n - 1) true v = v <-> nth (n - 1) v false = true)).
  { intros v L. split; intros E.
    - rewrite <- E, nth_set, Nat.eqb_refl, L. replace (n - 1 <? n) with true by (symmetry; apply Nat.ltb_lt; lia). reflexivity.
    - apply (vec_ext n); auto; [now rewrite set_nth_len|]. intros j Hj. rewrite nth_set. destruct (Nat.eqb_spec (n - 1) j) as [<-|]; auto. rewrite E. now destruct (_ <? _). }
  split.
  - intros E v I G. assert (E' : map (fun v => if length (places v) <? pad then set_nth (n - 1) true v else v) H = H) by congruence. clear - E' I G ST W.
    induction H as [|w H IH]; [destruct I|]. inversion W; subst. cbn [map] in E'. injection E' as E1 E2. destruct I as [->|I]; [|auto]. apply Nat.ltb_lt in G. rewrite G in E1. apply ST; auto.
  - intros A. f_equal. rewrite <- (map_id H) at 2. apply map_ext_in. intros v I. destruct (Nat.ltb_spec (length (places v)) pad) as [G|]; auto. apply ST; [exact (proj1 (Forall_forall _ _) W v I)|auto].
Qed.
Print Assumptions C71_padded_iff.
(* No file of numbers whatsoever is read as a matrix with a row of zeros: lines without entries are skipped (and the later rows move up), a 0 sets the last entry. *)
Theorem C71_no_zero_row file M v : Forall (Forall (fun w => w <> Other)) file -> alist2numpy file = Ret M -> In v M -> exists j, nth j v false = true.
Proof.
  intros F E I. unfold alist2numpy in E. set (lines := loadtxt file) in *.
  assert (FL : forall l, In l lines -> l <> [] /\ Forall (fun w => w <> Other) l).
  { intros l Il. apply filter_In in Il as [A B]. split; [destruct l; [discriminate|discriminate]|]. exact (proj1 (Forall_forall _ _) F l A). }
  destruct lines as [|first [|second more]] eqn:EL; try discriminate. rewrite <- EL in *. clear EL.
  destruct (int_of (nth_error first 0)) as [m| | | | |]; try discriminate.
  destruct (int_of (nth_error first 1)) as [n| | | | |]; try discriminate.
  revert E I. generalize 0 as i. revert M. induction m as [|m IH]; intros M i E I; cbn [read_rows] in E; [injection E as <-; destruct I|].
  destruct (nth_error lines (i + 4)) as [l|] eqn:NL; [|discriminate]. destruct (put n (digits l) (vzero n)) as [row| | | | |] eqn:PR; try discriminate.
  destruct (read_rows lines n (S i) m) as [M'| | | | |] eqn:RR; try discriminate. injection E as <-. destruct I as [<-|I]; [|exact (IH M' (S i) RR I)].
  apply nth_error_In in NL. destruct (FL l NL) as [NE FO]. destruct l as [|w l]; [contradiction|]. inversion FO as [|? ? Fw _]; subst. destruct w as [c|]; [|contradiction].
  cbn [digits flat_map app] in PR. destruct (put_spec n _ (vzero n) row (vzero_length n) PR) as [Lr N]. cbn [put] in PR. destruct (col_index n c) as [k|] eqn:C; [|discriminate].
  exists k. rewrite N. cbn [existsb]. rewrite C, Nat.eqb_refl. simpl. now rewrite orb_true_r.
Qed.
Print Assumptions C71_no_zero_row.
(* An entry beyond the number of columns raises IndexError - unless the line is not reached. *)
Theorem C71_out_of_range first l2 l3 l4 m n lines l c : first = map Num [m; n] -> l2 <> [] -> l3 <> [] -> l4 <> [] -> In l (firstn m lines) -> Forall (fun l => l <> []) lines -> In (Num c) l -> n < c ->
  alist2numpy ([first; l2; l3; l4] ++ lines) = IndexErr.
Proof.
  intros -> N2 N3 N4 I NB IC G. unfold alist2numpy.
  assert (E : loadtxt ([map Num [m; n]; l2; l3; l4] ++ lines) = [map Num [m; n]; l2; l3; l4] ++ lines).
  { unfold loadtxt. rewrite filter_app. cbn [map filter]. destruct l2; [contradiction|]. destruct l3; [contradiction|]. destruct l4; [contradiction|]. f_equal. apply filter_all. intros x Ix. apply (proj1 (Forall_forall _ _) NB) in Ix. destruct x; [contradiction|auto]. }
  rewrite E. cbn [map app nth_error int_of]. set (all := _ :: _). assert (NA : forall k, nth_error all (k + 4) = nth_error lines k) by (intros k; rewrite Nat.add_comm; reflexivity).
  assert (BAD : put n (digits l) (vzero n) = IndexErr).
  { assert (ID : In c (digits l)) by (unfold digits; apply in_flat_map; exists (Num c); split; auto; left; auto). revert ID. generalize (vzero n). generalize (digits l) as cs. induction cs as [|d cs IHc]; intros row ID; [destruct ID|]. cbn [put].
    destruct ID as [->|ID]; [|destruct (col_index n d); auto]. assert (CI : col_index n c = None) by (destruct c; [lia|]; cbn [col_index]; destruct (Nat.ltb_spec c n); [lia|auto]). now rewrite CI. }
  assert (GEN : forall k i, (forall x, nth_error all (i + x + 4) = nth_error (skipn i lines) x) -> In l (firstn k (skipn i lines)) -> read_rows all n i k = IndexErr).
  { induction k as [|k IHk]; intros i NI Il; [destruct Il|]. cbn [read_rows]. pose proof (NI 0) as N0. rewrite Nat.add_0_r in N0. rewrite N0. destruct (skipn i lines) as [|x xs] eqn:SK; [destruct Il|]. cbn [nth_error firstn] in *.
    assert (PE : forall cs row, (exists r, put n cs row = Ret r) \/ put n cs row = IndexErr) by (induction cs as [|d cs IHc]; intros row; cbn [put]; [eauto|destruct (col_index n d); auto]).
    assert (SK' : skipn (S i) lines = xs) by exact (skipn_next lines i x xs SK).
    destruct (PE (digits x) (vzero n)) as [[r Er]|Er]; rewrite Er; auto. destruct Il as [->|Il]; [congruence|]. rewrite IHk; auto; [|now rewrite SK'].
    intros y. rewrite SK', Nat.add_succ_comm. rewrite NI. reflexivity. }
  apply GEN; [intros x; apply NA|]. exact I.
Qed.
Print Assumptions C71_out_of_range.
(* the matrix [1 1 0; 0 0 1] filled up is read as [1 1 0; 0 0 1]; [1 1 0; 1 0 0] is read as [1 1 0; 1 0 1]; not filled up it is read exactly *)
Example C71_nonvacuous :
  alist2numpy (alist_file 3 2 [[true;true;false];[false;false;true]] [Num 2; Num 1] [Num 2; Num 1] [Num 1; Num 1; Num 1] [[Num 1]; [Num 1]; [Num 2]]) = Ret [[true;true;false];[false;false;true]] /\
  alist2numpy (alist_file 3 2 [[true;true;false];[true;false;false]] [Num 2; Num 2] [Num 2; Num 1] [Num 2; Num 1; Num 0] [[Num 1; Num 2]; [Num 1; Num 0]; [Num 0; Num 0]]) = Ret [[true;true;false];[true;false;true]] /\
  alist2numpy (alist_file 3 0 [[true;true;false];[true;false;false]] [Num 2; Num 2] [Num 2; Num 1] [Num 2; Num 1; Num 0] [[Num 1; Num 2]; [Num 1]; []]) = Ret [[true;true;false];[true;false;false]].
Proof. repeat split. Qed.
