(** * PropEval: property C81 - what the command that estimates the logical error rate of a state preparation circuit simulates *)
From Coq Require Import List Arith Bool ZArith Ascii String Lia.
From Verif Require Import PyModel EvalModel.
From Verif Require Import TextProofs SaveProofs RunFilesProofs.
Import ListNotations.
Local Open Scope nat_scope.

(** ** specification *)
(** [o] is on the command line and [o'] is not behind its last occurrence *)
Definition has_last_word (o o' : option_arg) (os : list option_arg) : Prop := exists l1 l2, os = l1 ++ o :: l2 /\ ~ In o' l2.
Definition contains (sub s : text) : Prop := exists a b, s = a ++ sub ++ b.
(** the code of the command line, and the directory for its circuits *)
Definition code_of (name : text) (d : Z) (call : code_call) (dir : text) : Prop :=
  (contains (tx "surface") name /\ call = FromName (tx "surface") (Some d) /\ dir = tx "rotated_surface_d" ++ showInt d) \/
  (~ contains (tx "surface") name /\ dir = name /\
   ((contains (tx "cc_4_8_8") name /\ call = SquareOctagonCode 5) \/
    (~ contains (tx "cc_4_8_8") name /\ contains (tx "cc_6_6_6") name /\ call = HexagonalCode 5) \/
    (In name [tx "steane"; tx "tetrahedral"; tx "shor"; tx "hamming"; tx "carbon"] /\ call = FromName name None))).
(** the parts of a file name *)
Definition words (zero noft exact : bool) (ver : string) : text :=
  tx (if zero then "zero_" else "plus_") ++ tx (if noft then "non_ft_" else "ft_") ++ tx (if exact then "opt_" else "heuristic_") ++ tx ver ++ tx ".qasm".
Definition ver_word (naive exact_ver : bool) : string := if naive then "naive" else if exact_ver then "opt" else "heuristic".

(** ** lemmas *)
Lemma starts_spec sub : forall s, starts sub s = true <-> exists b, s = sub ++ b.
Proof. induction sub as [|c sub IHs]; intros s; cbn [starts].
  - split; auto. intros _. exists s. reflexivity.
  - destruct s as [|d s]; [split; [discriminate|intros (b & H); discriminate H]|]. rewrite andb_true_iff, Ascii.eqb_eq, IHs. split.
    + intros (-> & b & ->). exists b. reflexivity.
    + intros (b & H). injection H as -> ->. split; auto. exists b. reflexivity. Qed.
Lemma occurs_spec sub s : occurs sub s = true <-> contains sub s.
Proof. unfold contains. induction s as [|c s IHs]; cbn [occurs]; rewrite orb_true_iff, starts_spec.
  - split; [intros [(b & H)|H]; [exists [], b; exact H|discriminate]|]. intros (a & b & H). left. destruct a; [exists b; exact H|discriminate].
  - rewrite IHs. split.
    + intros [(b & H)|(a & b & H)]; [exists [], b; exact H|exists (c :: a), b; rewrite H; reflexivity].
    + intros (a & b & H). destruct a as [|c' a]; [left; exists b; exact H|right]. injection H as -> H. exists a, b. exact H. Qed.
Lemma occurs_false sub s : occurs sub s = false <-> ~ contains sub s.
Proof. rewrite <- occurs_spec. destruct (occurs sub s); split; congruence. Qed.
Lemma choose_code_spec name d call dir : choose_code name d = Ret (call, dir) <-> code_of name d call dir.
Proof. unfold choose_code, code_of. destruct (occurs (tx "surface") name) eqn:E1.
  { apply occurs_spec in E1. split; [intros H; injection H as <- <-; left; auto|]. intros [(_ & -> & ->)|(N & _)]; [reflexivity|contradiction]. }
  apply occurs_false in E1. destruct (occurs (tx "cc_4_8_8") name) eqn:E2.
  { apply occurs_spec in E2. split; [intros H; injection H as <- <-; right; auto|]. intros [(N & _)|(_ & -> & [(_ & ->)|[(N & _)|(I & ->)]])]; try contradiction; try reflexivity.
    exfalso. apply occurs_spec in E2. cbn [In] in I. destruct I as [<-|[<-|[<-|[<-|[<-|[]]]]]]; vm_compute in E2; discriminate E2. }
  apply occurs_false in E2. destruct (occurs (tx "cc_6_6_6") name) eqn:E3.
  { apply occurs_spec in E3. split; [intros H; injection H as <- <-; right; split; [exact E1|]; split; [reflexivity|]; right; left; auto|]. intros [(N & _)|(_ & -> & [(N & _)|[(_ & _ & ->)|(I & ->)]])]; try contradiction; try reflexivity.
    exfalso. apply occurs_spec in E3. cbn [In] in I. destruct I as [<-|[<-|[<-|[<-|[<-|[]]]]]]; vm_compute in E3; discriminate E3. }
  apply occurs_false in E3. destruct (existsb (text_eqb name) available_codes) eqn:E4.
  - apply existsb_exists in E4 as (x & I & E). apply text_eqb_eq in E. subst x. split.
    + intros H; injection H as <- <-. right. split; auto. split; auto. right. right. split; auto. unfold available_codes in I. cbn [In] in *.
      destruct I as [H|[H|[H|[H|[H|[H|[H|[H|[]]]]]]]]]; auto 10.
      * destruct E1. rewrite <- H. exists [], []. reflexivity.
      * destruct E2. rewrite <- H. exists [], []. reflexivity.
      * destruct E3. rewrite <- H. exists [], []. reflexivity.
    + intros [(N & _)|(_ & -> & [(N & _)|[(_ & N & _)|(_ & ->)]])]; try contradiction. reflexivity.
  - split; [discriminate|]. intros [(N & _)|(_ & -> & [(N & _)|[(_ & N & _)|(I & ->)]])]; try contradiction. exfalso.
    assert (X : existsb (text_eqb name) available_codes = true); [|congruence]. apply existsb_exists. exists name. split; [|apply text_eqb_refl].
    unfold available_codes. cbn [In] in *. tauto. Qed.
Lemma parse_app os o : parse_args (os ++ [o]) = apply_option (parse_args os) o.
Proof. unfold parse_args. rewrite fold_left_app. reflexivity. Qed.
Lemma last_word_app o o' os x : has_last_word o o' (os ++ [x]) <-> x = o \/ x <> o' /\ has_last_word o o' os.
Proof. unfold has_last_word. split.
  - intros (l1 & l2 & E & N). destruct l2 as [|y l2] using rev_ind; [apply app_inj_tail in E as (_ & E); auto|]. clear IHl2.
    rewrite app_comm_cons, app_assoc in E. apply app_inj_tail in E as (E & ->). right. split; [intros ->; apply N, in_app_iff; right; left; reflexivity|].
    exists l1, l2. split; auto. intros H. apply N, in_app_iff. auto.
  - intros [->|(N & l1 & l2 & -> & H)]; [exists os, []; split; auto|]. exists l1, (l2 ++ [x]). split; [rewrite <- app_assoc; reflexivity|].
    rewrite in_app_iff. cbn [In]. intuition. Qed.
Lemma last_word_nil o o' : ~ has_last_word o o' [].
Proof. intros (l1 & l2 & E & _). destruct l1; discriminate. Qed.
Ltac lw := rewrite ?last_word_app, ?in_app_iff in *; cbn [In] in *.
(** ** C81 *)
(** Each setting is the one of the last option that speaks of it, the default otherwise: |0>, heuristic synthesis, optimal verification, distance 3. *)
Theorem C81_options : forall os, let s := parse_args os in
  (s_zero s = false <-> has_last_word OPlus OZero os) /\ (s_exact_circ s = true <-> has_last_word OExactCirc OHeuristicCirc os) /\
  (s_exact_ver s = false <-> has_last_word OHeuristicVer OExactVer os) /\ (s_naive s = true <-> In ONaiveVer os) /\ (s_no_ver s = true <-> In ONoVer os) /\
  (s_no_parallel s = true <-> In ONoParallel os) /\
  ((s_distance s = 3%Z /\ forall d, ~ In (ODistance d) os) \/ exists l1 l2, os = l1 ++ ODistance (s_distance s) :: l2 /\ forall d, ~ In (ODistance d) l2) /\
  ((s_n s = 500%Z /\ forall n, ~ In (ONErrors n) os) \/ exists l1 l2, os = l1 ++ ONErrors (s_n s) :: l2 /\ forall n, ~ In (ONErrors n) l2) /\
  ((s_p s = None /\ forall p, ~ In (OPError p) os) \/ exists p l1 l2, s_p s = Some p /\ os = l1 ++ OPError p :: l2 /\ forall p', ~ In (OPError p') l2).
Proof. cbv zeta. intros os. induction os as [|x os (Hz & Hc & Hv & Hn & Ho & Hq & Hd & He & Hp)] using rev_ind.
  { cbn. pose proof (last_word_nil OPlus OZero). pose proof (last_word_nil OExactCirc OHeuristicCirc). pose proof (last_word_nil OHeuristicVer OExactVer).
    repeat (split; [split; [intros; discriminate || contradiction|intros; contradiction]|]). split; [left; auto|]. split; left; auto. }
  rewrite parse_app, !last_word_app, !in_app_iff. destruct (parse_args os) as [p z n ec ev nv no d np]. cbn [s_p s_zero s_n s_exact_circ s_exact_ver s_naive s_no_ver s_distance s_no_parallel] in *.
  destruct x; cbn [apply_option s_p s_zero s_n s_exact_circ s_exact_ver s_naive s_no_ver s_distance s_no_parallel In];
    (split; [rewrite ?Hz; clear; intuition congruence|]); (split; [rewrite ?Hc; clear; intuition congruence|]); (split; [rewrite ?Hv; clear; intuition congruence|]);
    (split; [rewrite ?Hn; clear; intuition congruence|]); (split; [rewrite ?Ho; clear; intuition congruence|]); (split; [rewrite ?Hq; clear; intuition congruence|]);
    (split; [|split]).
  all: try (match goal with
    | |- _ \/ exists l1 l2, ?os ++ [?x] = l1 ++ ?x :: l2 /\ _ => right; exists os, []; split; [reflexivity|intros ? []]
    | |- _ \/ exists p l1 l2, Some ?q = Some p /\ _ => right; exists q, os, []; split; [reflexivity|]; split; [reflexivity|intros ? []] end).
  all: try (destruct Hd as [(-> & Hd)|(l1 & l2 & -> & Hd)]; [left; split; [reflexivity|]; intros d'; rewrite in_app_iff; cbn [In]; specialize (Hd d'); clear - Hd; intuition congruence|
    right; exists l1; eexists; split; [rewrite <- app_assoc; reflexivity|]; intros d'; rewrite in_app_iff; cbn [In]; specialize (Hd d'); clear - Hd; intuition congruence]).
  all: try (destruct He as [(-> & He)|(l1 & l2 & -> & He)]; [left; split; [reflexivity|]; intros d'; rewrite in_app_iff; cbn [In]; specialize (He d'); clear - He; intuition congruence|
    right; exists l1; eexists; split; [rewrite <- app_assoc; reflexivity|]; intros d'; rewrite in_app_iff; cbn [In]; specialize (He d'); clear - He; intuition congruence]).
  all: (destruct Hp as [(-> & Hp)|(q & l1 & l2 & -> & -> & Hp)]; [left; split; [reflexivity|]; intros d'; rewrite in_app_iff; cbn [In]; specialize (Hp d'); clear - Hp; intuition congruence|
    right; exists q, l1; eexists; split; [reflexivity|]; split; [rewrite <- app_assoc; reflexivity|]; intros d'; rewrite in_app_iff; cbn [In]; specialize (Hp d'); clear - Hp; intuition congruence]).
Qed.
Print Assumptions C81_options.
(** The code that is made and the directory of its circuits; any other name is refused before anything else happens. *)
Theorem C81_code : forall name d, (exists call dir, choose_code name d = Ret (call, dir) /\ code_of name d call dir) \/ (choose_code name d = Raise ValueError /\ forall call dir, ~ code_of name d call dir).
Proof. intros name d. destruct (choose_code name d) as [[call dir]|e] eqn:E.
  - left. exists call, dir. split; auto. apply choose_code_spec. exact E.
  - right. split; [|intros call dir H; apply choose_code_spec in H; congruence]. revert E. unfold choose_code. repeat (match goal with |- (if ?b then _ else _) = _ -> _ => destruct b end); intros H; try discriminate H. injection H as <-. reflexivity. Qed.
Print Assumptions C81_code.
Theorem C81_refused : forall C P Q R (T : tools C P Q R) there name os, (forall call dir, ~ code_of name (s_distance (parse_args os)) call dir) -> main T there name os = Raise ValueError.
Proof. intros C P Q R T there name os H. unfold main. destruct (C81_code name (s_distance (parse_args os))) as [(call & dir & _ & X)|(-> & _)]; [destruct (H _ _ X)|reflexivity]. Qed.
Print Assumptions C81_refused.

(** Two command lines that use the same directory use the same code: no circuit is ever taken for another code. *)
Lemma surface_dir z : contains (tx "surface") (tx "rotated_surface_d" ++ showInt z).
Proof. exists (tx "rotated_"), (tx "_d" ++ showInt z). reflexivity. Qed.
Theorem C81_directory : forall name d call dir name' d' call', code_of name d call dir -> code_of name' d' call' dir -> call = call'.
Proof. intros name d call dir name' d' call' H H'. destruct H as [(_ & -> & ->)|(N & -> & H)]; destruct H' as [(_ & -> & E)|(N' & E & H')].
  - apply app_inv_head in E. apply showInt_inj in E. congruence.
  - destruct N'. rewrite <- E. apply surface_dir.
  - destruct N. rewrite E. apply surface_dir.
  - subst name'. assert (K : choose_code name 0 = Ret (call, name) /\ choose_code name 0 = Ret (call', name)) by (split; apply choose_code_spec; right; auto). destruct K as [K K']. congruence. Qed.
Print Assumptions C81_directory.

(** The file name: one for each choice of state, kind and methods. *)
Lemma circ_file_words s : circ_file s = words (s_zero s) (s_no_ver s) (s_exact_circ s) (ver_word (s_naive s) (s_exact_ver s)).
Proof. destruct s as [p z n ec ev nv no d np]. destruct z, ec, ev, nv, no; reflexivity. Qed.
Definition bools5 : list (bool * (bool * (bool * (bool * bool)))) := list_prod [true; false] (list_prod [true; false] (list_prod [true; false] (list_prod [true; false] [true; false]))).
Definition words5 (x : bool * (bool * (bool * (bool * bool)))) : text := match x with (z, (no, (ec, (nv, ev)))) => words z no ec (ver_word nv ev) end.
Lemma bool_in (b : bool) : In b [true; false].
Proof. destruct b; cbn; auto. Qed.
Lemma words_inj z no ec nv ev z' no' ec' nv' ev' : words z no ec (ver_word nv ev) = words z' no' ec' (ver_word nv' ev') -> z = z' /\ no = no' /\ ec = ec' /\ nv = nv' /\ (nv = false -> ev = ev').
Proof. intros H. assert (K : forallb (fun x => forallb (fun y => implb (text_eqb (words5 x) (words5 y)) (match x, y with (z, (no, (ec, (nv, ev)))), (z', (no', (ec', (nv', ev')))) => eqb z z' && eqb no no' && eqb ec ec' && eqb nv nv' && (nv || eqb ev ev') end)) bools5) bools5 = true) by (vm_compute; reflexivity).
  assert (I : forall a b c d e, In (a, (b, (c, (d, e)))) bools5) by (intros; unfold bools5; repeat (apply in_prod; [apply bool_in|]); apply bool_in).
  rewrite forallb_forall in K. specialize (K _ (I z no ec nv ev)). rewrite forallb_forall in K. specialize (K _ (I z' no' ec' nv' ev')). cbv beta iota in K. unfold words5 in K. rewrite H, text_eqb_refl in K. cbn [implb] in K.
  repeat rewrite andb_true_iff in K. destruct K as [[[[K1 K2] K3] K4] K5]. apply eqb_prop in K1, K2, K3, K4. repeat split; auto. intros ->. apply eqb_prop. exact K5. Qed.
Theorem C81_file_names : forall os os', let s := parse_args os in let s' := parse_args os' in
  circ_file s = words (s_zero s) (s_no_ver s) (s_exact_circ s) (ver_word (s_naive s) (s_exact_ver s)) /\
  (circ_file s = circ_file s' <-> s_zero s = s_zero s' /\ s_no_ver s = s_no_ver s' /\ s_exact_circ s = s_exact_circ s' /\ s_naive s = s_naive s' /\ (s_naive s = false -> s_exact_ver s = s_exact_ver s')).
Proof. cbv zeta. intros os os'. split; [apply circ_file_words|]. rewrite !circ_file_words. split.
  - apply words_inj.
  - intros (-> & -> & -> & E & H). rewrite <- E. unfold ver_word. destruct (s_naive (parse_args os)); [reflexivity|]. rewrite H; reflexivity. Qed.
Print Assumptions C81_file_names.

(** What is simulated: the circuit of the file if it is there, otherwise one synthesised and verified with the methods asked for; always for the state, the error rate and the number of errors asked for. *)
Theorem C81_run : forall C P Q R (T : tools C P Q R) there name os r, let s := parse_args os in
  main T there name os = Ret r <->
  exists call dir c q, code_of name (s_distance s) call dir /\ make_code T call = Ret c /\
    (let file := words (s_zero s) (s_no_ver s) (s_exact_circ s) (ver_word (s_naive s) (s_exact_ver s)) in
     (there dir file = true /\ load T dir file = Ret q) \/
     (there dir file = false /\ exists prep,
        (if s_exact_circ s then prep_opt T c (s_zero s) = Ret (Some prep) else prep_heuristic T c (s_zero s) = Ret (Some prep)) /\
        (s_naive s = true /\ ver_naive T prep = Ret q \/ s_naive s = false /\ s_exact_ver s = true /\ ver_opt T prep = Ret q \/ s_naive s = false /\ s_exact_ver s = false /\ ver_heuristic T prep = Ret q))) /\
    simulate T q c (s_p s) (s_zero s) (negb (s_no_parallel s)) (s_n s) = Ret r.
Proof. cbv zeta. intros C P Q R T there name os r. rewrite <- circ_file_words. set (s := parse_args os). unfold main. fold s. set (f := circ_file s). split.
  - destruct (choose_code name (s_distance s)) as [[call dir]|] eqn:E; cbn [pbind fst snd]; [|discriminate]. destruct (make_code T call) as [c|] eqn:Ec; cbn [pbind]; [|discriminate].
    intros H. exists call, dir, c. destruct (there dir f) eqn:Et.
    + destruct (load T dir f) as [q|] eqn:El; cbn [pbind] in H; [|discriminate]. exists q. split; [apply choose_code_spec; exact E|]. split; [exact Ec|]. split; [left; split; [first [exact Et|reflexivity]|first [exact El|reflexivity]]|exact H].
    + destruct (build T c s) as [q|] eqn:Eb; cbn [pbind] in H; [|discriminate]. exists q. split; [apply choose_code_spec; exact E|]. split; [exact Ec|]. split; [right|exact H]. split; [first [exact Et|reflexivity]|].
      unfold build in Eb. destruct (s_exact_circ s).
      * destruct (prep_opt T c (s_zero s)) as [[prep|]|]; cbn [pbind] in Eb; try discriminate Eb. exists prep. split; [reflexivity|]. destruct (s_naive s); [auto|]. destruct (s_exact_ver s); auto 6.
      * destruct (prep_heuristic T c (s_zero s)) as [[prep|]|]; cbn [pbind] in Eb; try discriminate Eb. exists prep. split; [reflexivity|]. destruct (s_naive s); [auto|]. destruct (s_exact_ver s); auto 6.
  - intros (call & dir & c & q & H & Ec & D & Es). apply choose_code_spec in H. rewrite H. cbn [pbind fst snd]. rewrite Ec. cbn [pbind]. fold f in D. destruct D as [(-> & ->)|(-> & prep & Hp & D)].
    + cbn [pbind]. exact Es.
    + assert (build T c s = Ret q) as ->; [|exact Es]. unfold build. destruct (s_exact_circ s); rewrite Hp; cbn [pbind]; destruct D as [(-> & D)|[(-> & -> & D)|(-> & -> & D)]]; exact D. Qed.
Print Assumptions C81_run.

(** Failures: no circuit found within the time gives AssertionError; an exception in making the code, synthesis, loading or the simulation comes out as it is. *)
Theorem C81_failures : forall C P Q R (T : tools C P Q R) there name os call dir, let s := parse_args os in
  let file := words (s_zero s) (s_no_ver s) (s_exact_circ s) (ver_word (s_naive s) (s_exact_ver s)) in
  code_of name (s_distance s) call dir ->
  (forall e, make_code T call = Raise e -> main T there name os = Raise e) /\
  (forall c e, make_code T call = Ret c -> there dir file = true -> load T dir file = Raise e -> main T there name os = Raise e) /\
  (forall c, make_code T call = Ret c -> there dir file = false -> (if s_exact_circ s then prep_opt T c (s_zero s) = Ret None else prep_heuristic T c (s_zero s) = Ret None) -> main T there name os = Raise AssertionError) /\
  (forall c e, make_code T call = Ret c -> there dir file = false -> (if s_exact_circ s then prep_opt T c (s_zero s) = Raise e else prep_heuristic T c (s_zero s) = Raise e) -> main T there name os = Raise e).
Proof. cbv zeta. intros C P Q R T there name os call dir. rewrite <- circ_file_words. intros H. apply choose_code_spec in H. unfold main. rewrite H. cbn [pbind fst snd].
  split; [intros e ->; reflexivity|]. split; [intros c e -> -> ->; reflexivity|]. split; intros c; [|intros e]; intros -> ->; cbn [pbind]; unfold build; destruct (s_exact_circ _); intros ->; reflexivity. Qed.
Print Assumptions C81_failures.

(** Without "surface" in the name the distance plays no part: the colour codes are always those of distance 5. *)
Definition is_distance (o : option_arg) : bool := match o with ODistance _ => true | _ => false end.
Definition is_no_ver (o : option_arg) : bool := match o with ONoVer => true | _ => false end.
Definition set_distance (s : settings) (d : Z) : settings := mkS (s_p s) (s_zero s) (s_n s) (s_exact_circ s) (s_exact_ver s) (s_naive s) (s_no_ver s) d (s_no_parallel s).
Definition set_no_ver (s : settings) (b : bool) : settings := mkS (s_p s) (s_zero s) (s_n s) (s_exact_circ s) (s_exact_ver s) (s_naive s) b (s_distance s) (s_no_parallel s).
Lemma parse_without_distance os : exists d, parse_args os = set_distance (parse_args (filter (fun o => negb (is_distance o)) os)) d.
Proof. induction os as [|x os (d & IHos)] using rev_ind; [exists 3%Z; reflexivity|]. rewrite parse_app, filter_app, IHos. destruct (parse_args (filter _ os)) as [p z n ec ev nv no d0 np] eqn:E.
  destruct x; cbn [filter is_distance negb]; rewrite ?parse_app, ?app_nil_r, ?E; eexists; reflexivity. Qed.
Lemma parse_without_no_ver os : parse_args (filter (fun o => negb (is_no_ver o)) os) = set_no_ver (parse_args os) false.
Proof. induction os as [|x os IHos] using rev_ind; [reflexivity|]. rewrite parse_app, filter_app. destruct (parse_args os) as [p z n ec ev nv no d0 np] eqn:E.
  destruct x; cbn [filter is_no_ver negb]; rewrite ?parse_app, ?app_nil_r, IHos; reflexivity. Qed.
Theorem C81_distance_ignored : forall C P Q R (T : tools C P Q R) there name os, ~ contains (tx "surface") name -> main T there name os = main T there name (filter (fun o => negb (is_distance o)) os).
Proof. intros C P Q R T there name os N. destruct (parse_without_distance os) as (d & E). unfold main. rewrite E. destruct (parse_args (filter _ os)) as [p z n ec ev nv no d0 np].
  unfold set_distance. cbn [s_p s_zero s_n s_exact_circ s_exact_ver s_naive s_no_ver s_distance s_no_parallel]. unfold choose_code. rewrite (proj2 (occurs_false _ _) N). reflexivity. Qed.
Print Assumptions C81_distance_ignored.

(** --no_ver where no file is there: nothing changes, the circuit is verified all the same *)
Theorem C81_no_ver_built : forall C P Q R (T : tools C P Q R) name os, main T (fun _ _ => false) name os = main T (fun _ _ => false) name (filter (fun o => negb (is_no_ver o)) os).
Proof. intros C P Q R T name os. unfold main. rewrite parse_without_no_ver. destruct (parse_args os) as [p z n ec ev nv no d np]. reflexivity. Qed.
Print Assumptions C81_no_ver_built.
(** --no_ver with the circuits of the repository: none of them is ever loaded *)
Lemma shipped_non_ft z ec nv ev dir : shipped_there dir (words z true ec (ver_word nv ev)) = false.
Proof. unfold shipped_there. assert (K : forallb (fun w => forallb (fun x => negb (existsb (fun f => text_eqb w (f ++ tx ".qasm")) (snd x))) shipped) (map (fun x => match x with (z, (_, (ec, (nv, ev)))) => words z true ec (ver_word nv ev) end) bools5) = true) by (vm_compute; reflexivity).
  rewrite forallb_forall in K. specialize (K (words z true ec (ver_word nv ev))). rewrite forallb_forall in K.
  assert (I : In (words z true ec (ver_word nv ev)) (map (fun x => match x with (z, (_, (ec, (nv, ev)))) => words z true ec (ver_word nv ev) end) bools5)).
  { apply in_map_iff. exists (z, (true, (ec, (nv, ev)))). split; [reflexivity|]. unfold bools5. repeat (apply in_prod; [apply bool_in|]). apply bool_in. }
  specialize (K I). apply not_true_is_false. intros E. apply existsb_exists in E as (x & Ix & E). apply andb_true_iff in E as [_ E]. specialize (K _ Ix). rewrite E in K. discriminate K. Qed.
Theorem C81_no_ver_shipped : forall C P Q R (T : tools C P Q R) name os, In ONoVer os ->
  main T shipped_there name os = main T (fun _ _ => false) name os /\ main T shipped_there name os = main T (fun _ _ => false) name (filter (fun o => negb (is_no_ver o)) os).
Proof. intros C P Q R T name os H. assert (E : main T shipped_there name os = main T (fun _ _ => false) name os); [|rewrite <- C81_no_ver_built; auto].
  destruct (C81_options os) as (_ & _ & _ & _ & Ho & _). apply Ho in H. unfold main. destruct (choose_code _ _) as [[call dir]|]; [|reflexivity]. cbn [pbind fst snd].
  rewrite circ_file_words, H, shipped_non_ft. reflexivity. Qed.
Print Assumptions C81_no_ver_shipped.
(** The full claim - with --no_ver the simulated circuit has not been verified - does not hold: a tool box that only keeps a record of what was done. *)
Inductive record := Loaded (dir file : text) | Prepared (exact zero : bool) | Verified (how : nat) (r : record).
Definition tracing : tools code_call record record (record * code_call) := mkTools
  (fun c => Ret c) (fun _ z => Ret (Some (Prepared true z))) (fun _ z => Ret (Some (Prepared false z)))
  (fun r => Ret (Verified 0 r)) (fun r => Ret (Verified 1 r)) (fun r => Ret (Verified 2 r)) (fun d f => Ret (Loaded d f)) (fun q c _ _ _ _ => Ret (q, c)).
Theorem C81_no_ver_refuted : ~ (forall name os r, In ONoVer os -> main tracing shipped_there name os = Ret r -> forall how q c, r <> (Verified how q, c)).
Proof. intros H. apply (H (tx "steane") [OPError 0%Z; ONoVer] (Verified 1 (Prepared false true), FromName (tx "steane") None)) with (how := 1) (q := Prepared false true) (c := FromName (tx "steane") None); [right; left; reflexivity|vm_compute; reflexivity|reflexivity]. Qed.
Print Assumptions C81_no_ver_refuted.

(** Of the files in the repository, exactly those without "non_ft" in the name can be reached from the command line, and each one from the settings it names. *)
Definition reaching (dir : text) : text * list option_arg :=
  if text_eqb dir (tx "rotated_surface_d3") then (tx "surface", [ODistance 3%Z]) else if text_eqb dir (tx "rotated_surface_d5") then (tx "surface", [ODistance 5%Z]) else (dir, []).
Definition options5 (x : bool * (bool * (bool * (bool * bool)))) : list option_arg := match x with (z, (_, (ec, (nv, ev)))) =>
  (if z then [] else [OPlus]) ++ (if ec then [OExactCirc] else []) ++ (if nv then [ONaiveVer] else []) ++ (if ev then [] else [OHeuristicVer]) end.
Definition option_lists : list (list option_arg) := map options5 bools5.
Theorem C81_shipped : forall dir files f, In (dir, files) shipped -> In f files ->
  shipped_there dir (f ++ tx ".qasm") = true /\
  ((exists name os call, code_of name (s_distance (parse_args os)) call dir /\ circ_file (parse_args os) = f ++ tx ".qasm") <-> ~ contains (tx "non_ft") f).
Proof. intros dir files f Hd Hf. split.
  { unfold shipped_there. apply existsb_exists. exists (dir, files). split; [exact Hd|]. cbn [fst snd]. rewrite text_eqb_refl. apply existsb_exists. exists f. split; [exact Hf|apply text_eqb_refl]. }
  assert (K : forallb (fun x => forallb (fun f => if occurs (tx "non_ft") f then forallb (fun w => negb (text_eqb (words5 w) (f ++ tx ".qasm"))) bools5
     else existsb (fun os => text_eqb (circ_file (parse_args (snd (reaching (fst x)) ++ os))) (f ++ tx ".qasm") &&
            match choose_code (fst (reaching (fst x))) (s_distance (parse_args (snd (reaching (fst x)) ++ os))) with Ret (_, d) => text_eqb d (fst x) | _ => false end) option_lists) (snd x)) shipped = true) by (vm_compute; reflexivity).
  rewrite forallb_forall in K. specialize (K _ Hd). cbn [fst snd] in K. rewrite forallb_forall in K. specialize (K _ Hf). rewrite <- occurs_false. destruct (occurs (tx "non_ft") f).
  - split; [|discriminate]. intros (name & os & call & _ & E). exfalso. rewrite forallb_forall in K. rewrite circ_file_words in E.
    assert (I : In (s_zero (parse_args os), (s_no_ver (parse_args os), (s_exact_circ (parse_args os), (s_naive (parse_args os), s_exact_ver (parse_args os))))) bools5) by (unfold bools5; repeat (apply in_prod; [apply bool_in|]); apply bool_in).
    specialize (K _ I). unfold words5 in K. rewrite E, text_eqb_refl in K. discriminate K.
  - split; [reflexivity|]. intros _. apply existsb_exists in K as (os & _ & K). apply andb_true_iff in K as [K1 K2]. apply text_eqb_eq in K1.
    destruct (choose_code _ _) as [[call d]|] eqn:E; [|discriminate K2]. apply text_eqb_eq in K2. subst d. exists (fst (reaching dir)), (snd (reaching dir) ++ os), call. split; [apply choose_code_spec; exact E|exact K1]. Qed.
Print Assumptions C81_shipped.

(** ** concrete cases *)
Example C81_cases :
  main tracing shipped_there (tx "steane") [OPError 1%Z] = Ret (Loaded (tx "steane") (tx "zero_ft_heuristic_opt.qasm"), FromName (tx "steane") None) /\
  main tracing shipped_there (tx "surface") [OPlus; ODistance 5%Z; OExactCirc; OZero; OHeuristicCirc; ONaiveVer] = Ret (Loaded (tx "rotated_surface_d5") (tx "zero_ft_heuristic_naive.qasm"), FromName (tx "surface") (Some 5%Z)) /\
  main tracing shipped_there (tx "surface") [OPlus; ODistance 5%Z] = Ret (Verified 1 (Prepared false false), FromName (tx "surface") (Some 5%Z)) /\
  main tracing shipped_there (tx "cc_6_6_6") [ODistance 7%Z] = Ret (Loaded (tx "cc_6_6_6") (tx "zero_ft_heuristic_opt.qasm"), HexagonalCode 5) /\
  main tracing shipped_there (tx "my_cc_4_8_8_d7") [ODistance 7%Z; OExactCirc; OHeuristicVer] = Ret (Verified 2 (Prepared true true), SquareOctagonCode 5) /\
  main tracing shipped_there (tx "golay") [] = Raise ValueError.
Proof. vm_compute. repeat split. Qed.
Example C81_code_cases : code_of (tx "rotated surface") 5 (FromName (tx "surface") (Some 5%Z)) (tx "rotated_surface_d5") /\ (forall call dir, ~ code_of (tx "golay") 3 call dir) /\ ~ contains (tx "surface") (tx "cc_6_6_6") /\
  has_last_word OPlus OZero [OZero; OPlus; ONoVer] /\ ~ has_last_word OPlus OZero [OPlus; OZero].
Proof. split; [apply choose_code_spec; vm_compute; reflexivity|]. split; [intros call dir H; apply choose_code_spec in H; discriminate H|]. split; [apply occurs_false; reflexivity|]. split.
  - exists [OZero], [ONoVer]. split; [reflexivity|]. cbn. intuition discriminate.
  - intros (l1 & l2 & E & N). destruct l1 as [|a l1]; [injection E as <-; apply N; left; reflexivity|]. injection E as _ E. destruct l1 as [|b l1]; [discriminate E|]. injection E as _ E. destruct l1; discriminate E. Qed.
