(* Property C68: the output file of a simulation, also when several processes look for one at the same time, and when they
   crash.  Theorems quantify over all schedules of all processes. *)
From Coq Require Import List String Ascii Arith Bool Lia.
From Verif Require Import StatsModel FilesModel FilesProofs.
Import ListNotations.
Local Open Scope nat_scope.
Local Open Scope list_scope.

Lemma exists_lookup p s : exists_ p s = false <-> lookup p s = None.
Proof. unfold exists_. destruct (lookup p s); split; congruence. Qed.

(* everything there is in s is still there in s', unchanged *)
Definition keeps (s s' : fs) : Prop := forall q n, lookup q s = Some n -> lookup q s' = Some n.
Lemma keeps_refl s : keeps s s. Proof. red; auto. Qed.
Lemma keeps_trans a b c : keeps a b -> keeps b c -> keeps a c. Proof. unfold keeps; auto. Qed.
Lemma keeps_none s s' q : keeps s s' -> lookup q s' = None -> lookup q s = None.
Proof. intros K N. destruct (lookup q s) eqn:E; auto. rewrite (K _ _ E) in N. discriminate. Qed.
Lemma keeps_write p n s : lookup p s = None -> keeps s (write p n s).
Proof. intros N q m L. rewrite lookup_write_other; auto. congruence. Qed.
Lemma keeps_touch p s : keeps s (touch p s).
Proof. unfold touch. destruct (exists_ p s) eqn:E; [apply keeps_refl|]. apply keeps_write, exists_lookup; auto. Qed.

Lemma mkdirs_keeps rest : forall at_ s s', mkdirs at_ rest s = FOk s' -> keeps s s'.
Proof.
  induction rest as [|x r IH]; cbn [mkdirs]; intros at_ s s' E; [injection E as <-; apply keeps_refl|].
  destruct (lookup (at_ ++ [x]) s) as [[|c]|] eqn:L; [eauto|discriminate|].
  eapply keeps_trans; [apply keeps_write; exact L|eauto].
Qed.
(* what mkdirs adds is a directory on the way *)
Lemma mkdirs_adds rest : forall at_ s s' q, mkdirs at_ rest s = FOk s' -> lookup q s = None -> lookup q s' <> None ->
  exists a b, rest = a ++ b /\ a <> [] /\ q = at_ ++ a.
Proof.
  induction rest as [|x r IH]; cbn [mkdirs]; intros at_ s s' q E N N'; [injection E as <-; congruence|].
  destruct (lookup (at_ ++ [x]) s) as [[|c]|] eqn:L; [|discriminate|].
  - destruct (IH _ _ _ _ E N N') as [a [b [R [Na Q]]]]. exists (x :: a), b. split; [simpl; congruence|]. split; [discriminate|].
    rewrite Q, <- app_assoc. auto.
  - destruct (list_eq_dec string_dec q (at_ ++ [x])) as [->|D].
    + exists [x], r. split; auto. split; [discriminate|auto].
    + destruct (IH _ _ _ q E) as [a [b [R [Na Q]]]]; auto; [rewrite lookup_write_other; auto|].
      exists (x :: a), b. split; [simpl; congruence|]. split; [discriminate|]. rewrite Q, <- app_assoc. auto.
Qed.

Lemma stem_shorter c id : out_stem c <> (out_stem c ++ "id_" ++ str_nat id ++ ".json")%string.
Proof. intros E. apply (f_equal String.length) in E. rewrite !string_app_length in E. simpl in E. lia. Qed.
Lemma mkdir_not_file c id a b : mkdir_path c = a ++ b -> a <> out_file c id.
Proof.
  intros E ->. unfold mkdir_path, out_file in E. rewrite <- app_assoc in E. apply app_inv_head in E.
  destruct (out_stem c) as [|x y] eqn:S; [discriminate|]. rewrite <- S in E. injection E as E _. apply (stem_shorter c id). auto.
Qed.

Lemma free_id_spec cwd c s : forall fuel id k, free_id cwd c s fuel id = Some k ->
  id <= k /\ lookup (cwd ++ out_file c k) s = None /\ forall j, id <= j < k -> lookup (cwd ++ out_file c j) s <> None.
Proof.
  induction fuel as [|f IH]; intros id k; cbn [free_id]; [discriminate|]. destruct (exists_ (cwd ++ out_file c id) s) eqn:E.
  - intros F. destruct (IH _ _ F) as [A [B C]]. split; [lia|]. split; auto. intros j J.
    destruct (Nat.eq_dec j id) as [->|N]; [|apply C; lia]. unfold exists_ in E. destruct (lookup (cwd ++ out_file c id) s); congruence.
  - intros [= <-]. split; auto. split; [apply exists_lookup; auto|]. lia.
Qed.
Lemma free_id_fuel cwd c s fuel : forall id, free_id cwd c s fuel id = None -> forall j, id <= j < id + fuel -> In (cwd ++ out_file c j) (map fst s).
Proof.
  induction fuel as [|f IH]; intros id; cbn [free_id]; [lia|]. destruct (exists_ (cwd ++ out_file c id) s) eqn:E; [|discriminate].
  intros F j J. destruct (Nat.eq_dec j id) as [->|N]; [|apply (IH (S id)); auto; lia].
  destruct (in_dec (list_eq_dec string_dec) (cwd ++ out_file c id) (map fst s)) as [I|I]; auto.
  apply lookup_none_in in I. apply exists_lookup in I. congruence.
Qed.
Lemma free_id_terminates cwd c s id : exists k, free_id cwd c s (S (List.length s)) id = Some k.
Proof.
  destruct (free_id cwd c s (S (List.length s)) id) as [k|] eqn:E; eauto. exfalso.
  assert (I := free_id_fuel cwd c s _ _ E).
  assert (ND : NoDup (map (fun j => cwd ++ out_file c j) (seq id (S (List.length s))))).
  { apply FinFun.Injective_map_NoDup; [|apply seq_NoDup]. intros a b H. apply app_inv_head in H. eapply out_file_inj; eauto. }
  assert (L := NoDup_incl_length ND (l' := map fst s)). rewrite !map_length, seq_length in L.
  assert (List.length s < S (List.length s)) by lia. cut (S (List.length s) <= List.length s); [lia|]. apply L.
  intros q Q. apply in_map_iff in Q. destruct Q as [j [<- J]]. apply in_seq in J. apply I. lia.
Qed.

(* C68: create_outpath always ends; it returns the path of the first identifier from the given one on whose file did not
   exist, creates it empty, and leaves everything else as it was.  It raises only when a file stands where a directory
   of the path is needed *)
Theorem C68_fresh cwd c identifier s :
  match create_outpath cwd c identifier s with
  | FOk (Some (path, s')) => exists k, path = out_file c k /\ identifier <= k /\
      lookup (cwd ++ path) s = None /\ lookup (cwd ++ path) s' = Some (File CBroken) /\
      (forall j, identifier <= j < k -> lookup (cwd ++ out_file c j) s <> None) /\
      (forall q n, lookup q s = Some n -> lookup q s' = Some n) /\
      (forall q, lookup q s = None -> lookup q s' <> None -> q = cwd ++ path \/ exists a b, mkdir_path c = a ++ b /\ q = cwd ++ a)
  | FOk None => False
  | FRaise => exists a b cont, mkdir_path c = a ++ b /\ a <> [] /\ lookup (cwd ++ a) s = Some (File cont)
  end.
Proof.
  unfold create_outpath. destruct (mkdirs cwd (mkdir_path c) s) as [s1|] eqn:M; cbn [fbind].
  - destruct (free_id_terminates cwd c s1 identifier) as [k F]. rewrite F. destruct (free_id_spec _ _ _ _ _ _ F) as [A [B C]].
    assert (K := mkdirs_keeps _ _ _ _ M). exists k. split; auto. split; auto. split; [eapply keeps_none; eauto|].
    unfold touch. rewrite (proj2 (exists_lookup _ _) B). split; [apply lookup_write_same|]. split.
    { intros j J N. apply (C j J). destruct (lookup (cwd ++ out_file c j) s1) eqn:E; auto. exfalso.
      destruct (mkdirs_adds _ _ _ _ (cwd ++ out_file c j) M N) as [a [b [R [_ Q]]]]; [congruence|].
      apply app_inv_head in Q. symmetry in Q. apply (mkdir_not_file c j a b R Q). }
    split. { intros q n L. rewrite lookup_write_other; auto. apply K in L. congruence. }
    intros q N N'. destruct (list_eq_dec string_dec q (cwd ++ out_file c k)) as [->|D]; auto. right.
    rewrite lookup_write_other in N' by auto. destruct (mkdirs_adds _ _ _ _ q M N N') as [a [b [R [_ Q]]]]. eauto.
  - assert (G : forall rest at_ s0, keeps s s0 -> (forall a b, rest = a ++ b -> a <> [] -> forall ct, lookup (at_ ++ a) s0 = Some (File ct) -> lookup (at_ ++ a) s = Some (File ct)) ->
      mkdirs at_ rest s0 = FRaise -> exists a b cont, rest = a ++ b /\ a <> [] /\ lookup (at_ ++ a) s = Some (File cont)).
    { induction rest as [|x r IH]; cbn [mkdirs]; intros at_ s0 K X E; [discriminate|].
      destruct (lookup (at_ ++ [x]) s0) as [[|ct]|] eqn:L.
      - destruct (IH (at_ ++ [x]) s0) as [a [b [cont [R [Na Q]]]]]; auto.
        { intros a b R Na ct. rewrite <- app_assoc. apply (X ([x] ++ a) b); [simpl; congruence|discriminate]. }
        exists (x :: a), b, cont. split; [simpl; congruence|]. split; [discriminate|]. rewrite <- app_assoc in Q. auto.
      - exists [x], r, ct. split; auto. split; [discriminate|]. apply (X [x] r); auto. discriminate.
      - destruct (IH (at_ ++ [x]) (write (at_ ++ [x]) Dir s0)) as [a [b [cont [R [Na Q]]]]]; auto.
        { eapply keeps_trans; [exact K|]. apply keeps_write; auto. }
        { intros a b R Na ct. rewrite lookup_write_other.
          - rewrite <- app_assoc. apply (X ([x] ++ a) b); [simpl; congruence|discriminate].
          - intros H. apply (f_equal (@List.length string)) in H. rewrite app_length in H. destruct a; [congruence|simpl in H; lia]. }
        exists (x :: a), b, cont. split; [simpl; congruence|]. split; [discriminate|]. rewrite <- app_assoc in Q. auto. }
    apply (G _ cwd s); auto. apply keeps_refl.
Qed.

(* calls one after the other, each with its own settings, while nothing is deleted in between, return different files, and
   none of them existed before *)
Definition later (s s' : fs) : Prop := forall q, lookup q s <> None -> lookup q s' <> None.
Inductive calls (cwd : apath) : fs -> list (list string) -> fs -> Prop :=
| calls_nil s s' : later s s' -> calls cwd s [] s'
| calls_cons s s1 c id p s2 l s3 : later s s1 -> create_outpath cwd c id s1 = FOk (Some (p, s2)) -> calls cwd s2 l s3 -> calls cwd s (p :: l) s3.

Theorem C68_sequence cwd s l s' : calls cwd s l s' -> NoDup l /\ Forall (fun p => lookup (cwd ++ p) s = None) l.
Proof.
  induction 1 as [|s s1 c id p s2 l s3 La E C [ND F]]; [split; constructor|].
  assert (H := C68_fresh cwd c id s1). rewrite E in H. destruct H as [k [-> [_ [N [P [_ [K _]]]]]]].
  assert (BACK : forall q, lookup q s2 = None -> lookup q s = None).
  { intros q Q. destruct (lookup q s) eqn:L; auto. exfalso. destruct (lookup q s1) eqn:L1.
    - rewrite (K _ _ L1) in Q. discriminate.
    - apply (La q); auto. congruence. }
  rewrite Forall_forall in F. split.
  - constructor; auto. intros I. apply F in I. rewrite P in I. discriminate.
  - constructor.
    + destruct (lookup (cwd ++ out_file c k) s) eqn:L; auto. exfalso. apply (La (cwd ++ out_file c k)); auto. congruence.
    + apply Forall_forall. intros q I. apply BACK, F, I.
Qed.

(* ---- all schedules ---- *)
(* process p has chosen (holds) the file f: it has found f not existing *)
Definition holds (cwd : apath) (p : proc) (f : apath) : Prop :=
  exists id, f = cwd ++ out_file (pset p) id /\ (pst p = PTouch id \/ pst p = PDone id \/ pst p = PWriting id).
(* it has returned the path of f *)
Definition returned (cwd : apath) (p : proc) (f : apath) : Prop :=
  exists id, f = cwd ++ out_file (pset p) id /\ (pst p = PDone id \/ pst p = PWriting id).
Definition about_to_create (cwd : apath) (p : proc) (f : apath) : Prop :=
  exists id, f = cwd ++ out_file (pset p) id /\ pst p = PTouch id.
Definition not_started (procs : list proc) : Prop := Forall (fun p => exists id, pst p = PStart id) procs.

Lemma nth_update_nth {A} (l : list A) i j x : nth_error (update_nth i x l) j =
  if Nat.eqb i j then match nth_error l j with Some _ => Some x | None => None end else nth_error l j.
Proof.
  revert i j. induction l as [|y l IH]; intros i j.
  - destruct (Nat.eqb i j); destruct i, j; reflexivity.
  - destruct i, j; simpl; auto.
Qed.

Lemma cstep_cases cwd ps s e : (nth_error ps (fst e) = None /\ cstep cwd (ps, s) e = (ps, s)) \/
  exists p st s', nth_error ps (fst e) = Some p /\ pstep cwd (snd e) p s = (st, s') /\
    cstep cwd (ps, s) e = (update_nth (fst e) {| pset := pset p; pst := st |} ps, s').
Proof.
  unfold cstep. cbn [fst snd]. destruct (nth_error ps (fst e)) as [p|] eqn:N; auto. right.
  destruct (pstep cwd (snd e) p s) as [st s'] eqn:E. exists p, st, s'. auto.
Qed.
Lemma run_snoc cwd c sched e : run cwd c (sched ++ [e]) = cstep cwd (run cwd c sched) e.
Proof. unfold run. rewrite fold_left_app. auto. Qed.
Lemma run_app cwd c a b : run cwd c (a ++ b) = run cwd (run cwd c a) b.
Proof. unfold run. rewrite fold_left_app. auto. Qed.

(* the invariant: what was there at the beginning is unchanged, files chosen did not exist at the beginning, returned files exist *)
Definition inv (cwd : apath) (s0 : fs) (c : config) : Prop :=
  keeps s0 (snd c) /\
  (forall i p f, nth_error (fst c) i = Some p -> holds cwd p f -> lookup f s0 = None) /\
  (forall i p f, nth_error (fst c) i = Some p -> returned cwd p f -> lookup f (snd c) <> None).

Lemma later_write p n s : later s (write p n s).
Proof. intros q L. destruct (list_eq_dec string_dec q p) as [->|D]; [rewrite lookup_write_same; discriminate|rewrite lookup_write_other; auto]. Qed.
Lemma keeps_later s s' : keeps s s' -> later s s'.
Proof. intros K q L. destruct (lookup q s) eqn:E; [|congruence]. rewrite (K _ _ E). discriminate. Qed.

Lemma pstep_later cwd d p s st s' : pstep cwd d p s = (st, s') -> later s s'.
Proof.
  unfold pstep. destruct (pst p) as [id|id|id|id|id|]; intros E.
  - destruct (mkdirs cwd (mkdir_path (pset p)) s) eqn:M; injection E as _ <-; apply keeps_later; [eapply mkdirs_keeps; eauto|apply keeps_refl].
  - destruct (exists_ _ s); injection E as _ <-; apply keeps_later, keeps_refl.
  - injection E as _ <-. apply keeps_later, keeps_touch.
  - injection E as _ <-. apply later_write.
  - injection E as _ <-. apply later_write.
  - injection E as _ <-. apply keeps_later, keeps_refl.
Qed.
(* a file held after a step was held before, or did not exist; returned after: returned before or created now *)
Lemma pstep_holds cwd d p s st s' f : pstep cwd d p s = (st, s') -> holds cwd {| pset := pset p; pst := st |} f ->
  holds cwd p f \/ (lookup f s = None /\ s' = s /\ about_to_create cwd {| pset := pset p; pst := st |} f).
Proof.
  intros E [id [F H]]. simpl in F, H. unfold pstep in E. destruct (pst p) as [i|i|i|i|i|] eqn:P.
  - destruct (mkdirs cwd (mkdir_path (pset p)) s); injection E as <- <-; intuition discriminate.
  - destruct (exists_ (cwd ++ out_file (pset p) i) s) eqn:X; injection E as <- <-; [intuition discriminate|].
    right. destruct H as [H|[H|H]]; try discriminate. injection H as ->. subst f. split; [apply exists_lookup; auto|]. split; auto.
    exists id. auto.
  - injection E as <- <-. left. exists id. split; auto. destruct H as [H|[H|H]]; try discriminate. injection H as ->. auto.
  - injection E as <- <-. left. exists id. split; auto. destruct H as [H|[H|H]]; try discriminate. injection H as ->. auto.
  - injection E as <- <-. left. exists id. split; auto. destruct H as [H|[H|H]]; try discriminate. injection H as ->. auto.
  - injection E as <- <-. intuition discriminate.
Qed.
Lemma pstep_returned cwd d p s st s' f : pstep cwd d p s = (st, s') -> returned cwd {| pset := pset p; pst := st |} f ->
  returned cwd p f \/ lookup f s' <> None.
Proof.
  intros E [id [F H]]. simpl in F, H. unfold pstep in E. destruct (pst p) as [i|i|i|i|i|] eqn:P.
  - destruct (mkdirs cwd (mkdir_path (pset p)) s); injection E as <- <-; intuition discriminate.
  - destruct (exists_ (cwd ++ out_file (pset p) i) s) eqn:X; injection E as <- <-; intuition discriminate.
  - injection E as <- <-. right. destruct H as [H|H]; [|discriminate]. injection H as ->. subst f. unfold touch.
    destruct (exists_ (cwd ++ out_file (pset p) id) s) eqn:X.
    + unfold exists_ in X. destruct (lookup (cwd ++ out_file (pset p) id) s); congruence.
    + rewrite lookup_write_same. discriminate.
  - injection E as <- <-. left. exists id. split; auto. destruct H as [H|H]; try discriminate. injection H as ->. auto.
  - injection E as <- <-. left. exists id. split; auto. destruct H as [H|H]; try discriminate. injection H as ->. auto.
  - injection E as <- <-. intuition discriminate.
Qed.
(* what a step changes: the file the process holds *)
Lemma pstep_frame cwd d p s st s' q n : pstep cwd d p s = (st, s') -> ~ returned cwd p q -> lookup q s = Some n -> lookup q s' = Some n.
Proof.
  intros E NR L. unfold pstep in E. destruct (pst p) as [i|i|i|i|i|] eqn:P.
  - destruct (mkdirs cwd (mkdir_path (pset p)) s) eqn:M; injection E as _ <-; auto. eapply mkdirs_keeps; eauto.
  - destruct (exists_ _ s); injection E as _ <-; auto.
  - injection E as _ <-. apply keeps_touch. auto.
  - injection E as _ <-. rewrite lookup_write_other; auto. intros ->. apply NR. exists i. auto.
  - injection E as _ <-. rewrite lookup_write_other; auto. intros ->. apply NR. exists i. auto.
  - injection E as _ <-. auto.
Qed.
Lemma returned_holds cwd p f : returned cwd p f -> holds cwd p f.
Proof. intros [id [F H]]. exists id. split; auto. Qed.

Lemma inv_step cwd s0 c e : inv cwd s0 c -> inv cwd s0 (cstep cwd c e).
Proof.
  destruct c as [ps s]. intros [K [H R]]. simpl in K, H, R.
  destruct (cstep_cases cwd ps s e) as [[_ ->]|[p [st [s' [N [E ->]]]]]]; [split; auto|].
  assert (La := pstep_later _ _ _ _ _ _ E). split; [|split]; simpl.
  - intros q n L. eapply pstep_frame; eauto. intros Q. apply returned_holds in Q. rewrite (H _ _ _ N Q) in L. discriminate.
  - intros i p' f Np Hf. rewrite nth_update_nth in Np. destruct (Nat.eqb_spec (fst e) i) as [<-|D]; [|eauto].
    rewrite N in Np. injection Np as <-. destruct (pstep_holds _ _ _ _ _ _ _ E Hf) as [Hf'|[L _]]; [eauto|].
    eapply keeps_none; eauto.
  - intros i p' f Np Hf. rewrite nth_update_nth in Np. destruct (Nat.eqb_spec (fst e) i) as [<-|D].
    + rewrite N in Np. injection Np as <-. destruct (pstep_returned _ _ _ _ _ _ _ E Hf) as [Hf'|L]; auto.
      apply La. eapply R; eauto.
    + apply La. eapply R; eauto.
Qed.
Lemma inv_run cwd procs s0 sched : not_started procs -> inv cwd s0 (run cwd (procs, s0) sched).
Proof.
  intros NS. induction sched as [|e sched IH] using rev_ind.
  - split; [apply keeps_refl|]. split; intros i p f N; simpl in N; apply nth_error_In in N; unfold not_started in NS; rewrite Forall_forall in NS.
    + intros [id [_ H]]. destruct (NS p N) as [j J]. rewrite J in H. intuition discriminate.
    + intros [id [_ H]]. destruct (NS p N) as [j J]. rewrite J in H. intuition discriminate.
  - rewrite run_snoc. apply inv_step. auto.
Qed.

(* C68: in every schedule, however many processes run and wherever they stop, nothing that existed at the beginning is
   changed; a file that a process has returned exists and did not exist at the beginning *)
Theorem C68_preserve cwd procs s0 sched : not_started procs ->
  let c := run cwd (procs, s0) sched in
  (forall q n, lookup q s0 = Some n -> lookup q (snd c) = Some n) /\
  (forall i p f, nth_error (fst c) i = Some p -> returned cwd p f -> lookup f s0 = None /\ lookup f (snd c) <> None).
Proof.
  intros NS c. destruct (inv_run cwd procs s0 sched NS) as [K [H R]]. split; auto. intros i p f N Q.
  split; [eapply H; eauto; apply returned_holds; auto|eapply R; eauto].
Qed.

(* C68: two processes can only get the same file if at some moment both had seen that it does not exist and neither had
   created it *)
Lemma conflict cwd procs s0 sched i j pi pj f : not_started procs -> i <> j ->
  nth_error (fst (run cwd (procs, s0) sched)) i = Some pi -> nth_error (fst (run cwd (procs, s0) sched)) j = Some pj ->
  holds cwd pi f -> holds cwd pj f ->
  exists a b qi qj, sched = a ++ b /\ nth_error (fst (run cwd (procs, s0) a)) i = Some qi /\ nth_error (fst (run cwd (procs, s0) a)) j = Some qj /\
    about_to_create cwd qi f /\ about_to_create cwd qj f.
Proof.
  intros NS. revert i j pi pj. induction sched as [|e sched IH] using rev_ind; intros i j pi pj D Ni Nj Hi Hj.
  - exfalso. simpl in Ni. apply nth_error_In in Ni. unfold not_started in NS. rewrite Forall_forall in NS. destruct (NS pi Ni) as [k J].
    destruct Hi as [id [_ H]]. rewrite J in H. intuition discriminate.
  - assert (IV := inv_run cwd procs s0 sched NS).
    assert (WHOLE := run_snoc cwd (procs, s0) sched e). rewrite WHOLE in Ni, Nj.
    destruct (run cwd (procs, s0) sched) as [ps s] eqn:C.
    destruct (cstep_cases cwd ps s e) as [[_ Es]|[p [st [s' [N [E Es]]]]]]; rewrite Es in Ni, Nj; cbn [fst] in Ni, Nj.
    { destruct (IH i j pi pj D Ni Nj Hi Hj) as [a [b [qi [qj [-> X]]]]]. exists a, (b ++ [e]), qi, qj. rewrite app_assoc. auto. }
    assert (SYM : forall i j pi pj, i <> j -> fst e = i ->
      nth_error (update_nth (fst e) {| pset := pset p; pst := st |} ps) i = Some pi -> nth_error (update_nth (fst e) {| pset := pset p; pst := st |} ps) j = Some pj ->
      holds cwd pi f -> holds cwd pj f ->
      exists a b qi qj, sched ++ [e] = a ++ b /\ nth_error (fst (run cwd (procs, s0) a)) i = Some qi /\ nth_error (fst (run cwd (procs, s0) a)) j = Some qj /\
        about_to_create cwd qi f /\ about_to_create cwd qj f).
    { clear i j pi pj D Ni Nj Hi Hj. intros i j pi pj D Ei Ni Nj Hi Hj.
      assert (Ni0 := Ni). assert (Nj0 := Nj).
      rewrite nth_update_nth in Ni, Nj. rewrite Ei, Nat.eqb_refl in Ni. rewrite Ei in N. rewrite N in Ni. injection Ni as <-.
      rewrite Ei in Nj. destruct (Nat.eqb_spec i j) as [|_]; [contradiction|].
      destruct (pstep_holds _ _ _ _ _ _ _ E Hi) as [Hi'|[L [_ A]]].
      - destruct (IH i j p pj D) as [a [b [qi [qj [-> X]]]]]; auto. exists a, (b ++ [e]), qi, qj. rewrite app_assoc. auto.
      - exists (sched ++ [e]), [], {| pset := pset p; pst := st |}, pj. rewrite app_nil_r. split; auto.
        rewrite WHOLE, Es. cbn [fst]. split; auto. split; auto. split; auto.
        destruct IV as [_ [_ R]]. destruct Hj as [id [F [H|H]]]; [exists id; auto|]. exfalso.
        apply (R j pj f Nj); auto. exists id. auto. }
    destruct (Nat.eq_dec (fst e) i) as [Ei|Ni']; [eapply SYM; eauto|].
    destruct (Nat.eq_dec (fst e) j) as [Ej|Nj'].
    + destruct (SYM j i pj pi) as [a [b [qj [qi [X [A [B [P Q]]]]]]]]; auto. exists a, b, qi, qj. auto.
    + rewrite nth_update_nth in Ni, Nj. destruct (Nat.eqb_spec (fst e) i); [contradiction|]. destruct (Nat.eqb_spec (fst e) j); [contradiction|].
      destruct (IH i j pi pj D Ni Nj Hi Hj) as [a [b [qi [qj [-> X]]]]]. exists a, (b ++ [e]), qi, qj. rewrite app_assoc. auto.
Qed.
Theorem C68_exclusive cwd procs s0 sched i j pi pj f : not_started procs -> i <> j ->
  nth_error (fst (run cwd (procs, s0) sched)) i = Some pi -> nth_error (fst (run cwd (procs, s0) sched)) j = Some pj ->
  returned cwd pi f -> returned cwd pj f ->
  exists a b qi qj, sched = a ++ b /\ nth_error (fst (run cwd (procs, s0) a)) i = Some qi /\ nth_error (fst (run cwd (procs, s0) a)) j = Some qj /\
    about_to_create cwd qi f /\ about_to_create cwd qj f.
Proof. intros NS D Ni Nj Hi Hj. eapply conflict; eauto; apply returned_holds; auto. Qed.

(* ---- the race ---- *)
Local Opaque out_file mkdir_path out_dir out_stem.
(* the result that process i has written last in a schedule, if it has completed a write *)
Definition last_save (cwd : apath) (i : nat) (c : config) (sched : list (nat * dict)) : option dict :=
  snd (fold_left (fun cl e =>
    (cstep cwd (fst cl) e,
     match nth_error (fst (fst cl)) i with
     | Some p => match pst p with PWriting _ => if Nat.eqb (fst e) i then Some (snd e) else snd cl | _ => snd cl end
     | None => snd cl end)) sched (c, None)).

Lemma last_save_run cwd i c sched : forall l,
  fst (fold_left (fun cl e =>
    (cstep cwd (fst cl) e,
     match nth_error (fst (fst cl)) i with
     | Some p => match pst p with PWriting _ => if Nat.eqb (fst e) i then Some (snd e) else snd cl | _ => snd cl end
     | None => snd cl end)) sched (c, l)) = run cwd c sched.
Proof. revert c. induction sched as [|e r IH]; intros c l; [reflexivity|]. cbn [fold_left]. rewrite IH. reflexivity. Qed.
Lemma last_save_snoc cwd i c sched e : last_save cwd i c (sched ++ [e]) =
  match nth_error (fst (run cwd c sched)) i with
  | Some p => match pst p with PWriting _ => if Nat.eqb (fst e) i then Some (snd e) else last_save cwd i c sched | _ => last_save cwd i c sched end
  | None => last_save cwd i c sched end.
Proof. unfold last_save. rewrite fold_left_app. cbn [fold_left snd]. rewrite last_save_run. reflexivity. Qed.

Lemma mkdirs_dirs rest : forall at_ s s', mkdirs at_ rest s = FOk s' -> forall a b, rest = a ++ b -> a <> [] -> lookup (at_ ++ a) s' = Some Dir.
Proof.
  induction rest as [|x r IH]; cbn [mkdirs]; intros at_ s s' E a b R N.
  - destruct a; [congruence|discriminate].
  - destruct a as [|y a]; [congruence|]. simpl in R. injection R as <- R.
    assert (G : forall s1, lookup (at_ ++ [x]) s1 = Some Dir -> mkdirs (at_ ++ [x]) r s1 = FOk s' -> lookup (at_ ++ x :: a) s' = Some Dir).
    { intros s1 L M. destruct a as [|z a]; [apply (mkdirs_keeps _ _ _ _ M); auto|].
      assert (H := IH _ _ _ M (z :: a) b R ltac:(discriminate)). rewrite <- app_assoc in H. exact H. }
    destruct (lookup (at_ ++ [x]) s) as [[|ct]|] eqn:L; [eauto|discriminate|]. apply (G (write (at_ ++ [x]) Dir s)); auto. apply lookup_write_same.
Qed.
Lemma mkdirs_again rest : forall at_ s, (forall a b, rest = a ++ b -> a <> [] -> lookup (at_ ++ a) s = Some Dir) -> mkdirs at_ rest s = FOk s.
Proof.
  induction rest as [|x r IH]; intros at_ s A; [reflexivity|]. cbn [mkdirs]. rewrite (A [x] r) by (auto; discriminate). apply IH.
  intros a b R N. rewrite <- app_assoc. apply (A (x :: a) b); [simpl; congruence|discriminate].
Qed.

Lemma check_steps cwd c s d k q n : forall id, id + n = k -> lookup (cwd ++ out_file c k) s = None ->
  (forall j, id <= j < k -> lookup (cwd ++ out_file c j) s <> None) ->
  run cwd ([{| pset := c; pst := PCheck id |}; q], s) (repeat (0, d) (S n)) = ([{| pset := c; pst := PTouch k |}; q], s) /\
  run cwd ([q; {| pset := c; pst := PCheck id |}], s) (repeat (1, d) (S n)) = ([q; {| pset := c; pst := PTouch k |}], s).
Proof.
  induction n as [|n IH]; intros id E N A.
  - assert (id = k) by lia. subst id. simpl. unfold cstep. simpl. unfold pstep. simpl. rewrite (proj2 (exists_lookup _ _) N). auto.
  - assert (X : exists_ (cwd ++ out_file c id) s = true).
    { unfold exists_. specialize (A id ltac:(lia)). destruct (lookup (cwd ++ out_file c id) s); congruence. }
    destruct (IH (S id)) as [B C]; [lia|auto|intros j J; apply A; lia|].
    change (repeat (0, d) (S (S n))) with ((0, d) :: repeat (0, d) (S n)). change (repeat (1, d) (S (S n))) with ((1, d) :: repeat (1, d) (S n)).
    split; unfold run; cbn [fold_left]; [rewrite <- B|rewrite <- C]; unfold run; f_equal; unfold cstep; simpl; unfold pstep; simpl; rewrite X; auto.
Qed.

(* C68: two processes with the same settings can get the same file, wherever a single one gets a file; the results of
   one of them then replace those of the other *)
Theorem C68_race cwd c id s path s' d0 d1 : create_outpath cwd c id s = FOk (Some (path, s')) ->
  let start := ([{| pset := c; pst := PStart id |}; {| pset := c; pst := PStart id |}], s) in
  exists sched, let final := run cwd start sched in
    (forall i, i < 2 -> exists p, nth_error (fst final) i = Some p /\ returned cwd p (cwd ++ path)) /\
    last_save cwd 0 start sched = Some d0 /\ last_save cwd 1 start sched = Some d1 /\
    lookup (cwd ++ path) (snd final) = Some (File (CDict d1)).
Proof.
  intros E start. assert (H := C68_fresh cwd c id s). rewrite E in H. destruct H as [k [-> [Le _]]].
  unfold create_outpath in E. destruct (mkdirs cwd (mkdir_path c) s) as [s1|] eqn:M; [|discriminate]. cbn [fbind] in E.
  destruct (free_id cwd c s1 (S (List.length s1)) id) as [k'|] eqn:F; [|discriminate]. assert (Ek : out_file c k' = out_file c k) by congruence.
  apply out_file_inj in Ek. subst k'. destruct (free_id_spec _ _ _ _ _ _ F) as [_ [N A]].
  assert (M1 : mkdirs cwd (mkdir_path c) s1 = FOk s1). { apply mkdirs_again. apply (mkdirs_dirs _ _ _ _ M). }
  set (a := [(0, d0); (1, d0)] ++ repeat (0, d0) (S (k - id)) ++ repeat (1, d0) (S (k - id)) ++ [(0, d0); (1, d0)]).
  set (w := [(0, d0); (0, d0); (1, d1); (1, d1)]).
  set (s2 := touch (cwd ++ out_file c k) s1). set (P := fun st => {| pset := c; pst := st |}).
  assert (RA : run cwd start a = ([P (PDone k); P (PDone k)], s2)).
  { unfold a. rewrite !run_app. unfold start.
    replace (run cwd ([{| pset := c; pst := PStart id |}; {| pset := c; pst := PStart id |}], s) [(0, d0); (1, d0)])
      with ([P (PCheck id); P (PCheck id)], s1).
    2:{ unfold run. cbn [fold_left]. unfold cstep at 2. simpl. unfold pstep. simpl. rewrite M. unfold cstep. simpl. unfold pstep. simpl. rewrite M1. auto. }
    destruct (check_steps cwd c s1 d0 k (P (PCheck id)) (k - id) id) as [B _]; [lia|auto|auto|]. unfold P at 1. rewrite B.
    destruct (check_steps cwd c s1 d0 k (P (PTouch k)) (k - id) id) as [_ B']; [lia|auto|auto|].
    change {| pset := c; pst := PTouch k |} with (P (PTouch k)). unfold P at 2. rewrite B'.
    unfold run. simpl. unfold cstep at 2. simpl. unfold pstep. simpl. unfold cstep. simpl. unfold pstep. simpl.
    fold s2. replace (touch (cwd ++ out_file c k) s2) with s2; [reflexivity|]. unfold s2 at 2. unfold touch at 1.
    replace (exists_ (cwd ++ out_file c k) (touch (cwd ++ out_file c k) s1)) with true; [reflexivity|].
    unfold touch. rewrite (proj2 (exists_lookup _ _) N). unfold exists_. rewrite lookup_write_same. auto. }
  exists (a ++ w). cbv zeta. rewrite run_app, RA.
  assert (LS : forall i, last_save cwd i start (a ++ w) =
    snd (fold_left (fun cl e => (cstep cwd (fst cl) e,
     match nth_error (fst (fst cl)) i with
     | Some p => match pst p with PWriting _ => if Nat.eqb (fst e) i then Some (snd e) else snd cl | _ => snd cl end
     | None => snd cl end)) w (([P (PDone k); P (PDone k)], s2), last_save cwd i start a))).
  { intros i. unfold last_save. rewrite fold_left_app. f_equal. f_equal.
    rewrite (surjective_pairing (fold_left _ a (start, None))). rewrite last_save_run, RA. reflexivity. }
  rewrite !LS. unfold w, run. split; [|split; [|split]].
  - intros i Hi. cbn [fold_left]. unfold cstep. simpl. unfold pstep. simpl.
    destruct i as [|[|i]]; [| |lia]; eexists; (split; [reflexivity|]); exists k; simpl; auto.
  - reflexivity.
  - reflexivity.
  - cbn [fold_left]. unfold cstep. simpl. unfold pstep. simpl. apply lookup_write_same.
Qed.

(* ---- crashes ---- *)
Lemma pstep_keeps_holding cwd d p s st s' f : pstep cwd d p s = (st, s') -> holds cwd p f -> holds cwd {| pset := pset p; pst := st |} f.
Proof.
  intros E [id [F H]]. unfold pstep in E. destruct H as [H|[H|H]]; rewrite H in E; injection E as <- _; exists id; simpl; auto.
Qed.
Lemma cstep_holding cwd c e j p f : nth_error (fst c) j = Some p -> holds cwd p f -> exists p', nth_error (fst (cstep cwd c e)) j = Some p' /\ holds cwd p' f.
Proof.
  destruct c as [ps s]. simpl. intros N H. destruct (cstep_cases cwd ps s e) as [[_ ->]|[p0 [st [s' [N0 [E ->]]]]]]; [eauto|]. cbn [fst].
  rewrite nth_update_nth. destruct (Nat.eqb_spec (fst e) j) as [<-|D]; [|eauto]. rewrite N0 in N. injection N as ->. rewrite N0.
  eexists. split; [reflexivity|]. eapply pstep_keeps_holding; eauto.
Qed.
Lemma cstep_settings cwd c e : map pset (fst (cstep cwd c e)) = map pset (fst c).
Proof.
  destruct c as [ps s]. destruct (cstep_cases cwd ps s e) as [[_ ->]|[p0 [st [s' [N0 [E ->]]]]]]; auto. cbn [fst].
  clear E. revert N0. generalize (fst e). induction ps as [|p ps IH]; intros [|i] N; simpl in *; auto; [injection N as ->; auto|].
  f_equal. auto.
Qed.
(* a process that does not hold f leaves f alone, unless f is one of its directories *)
Lemma pstep_other cwd d p s st s' f : pstep cwd d p s = (st, s') -> ~ holds cwd p f ->
  (forall a b, mkdir_path (pset p) = a ++ b -> f <> cwd ++ a) -> lookup f s' = lookup f s.
Proof.
  intros E NH ND. unfold pstep in E. destruct (pst p) as [i|i|i|i|i|] eqn:P.
  - destruct (mkdirs cwd (mkdir_path (pset p)) s) as [s1|] eqn:M; injection E as _ <-; auto.
    destruct (lookup f s) eqn:L; [apply (mkdirs_keeps _ _ _ _ M); auto|]. destruct (lookup f s1) eqn:L1; auto. exfalso.
    destruct (mkdirs_adds _ _ _ _ f M L) as [a [b [R [_ Q]]]]; [congruence|]. apply (ND a b R Q).
  - destruct (exists_ _ s); injection E as _ <-; auto.
  - injection E as _ <-. unfold touch. destruct (exists_ _ s); auto. apply lookup_write_other. intros ->. apply NH. exists i. auto.
  - injection E as _ <-. apply lookup_write_other. intros ->. apply NH. exists i. auto.
  - injection E as _ <-. apply lookup_write_other. intros ->. apply NH. exists i. auto.
  - injection E as _ <-. auto.
Qed.

(* what the file of a process should hold *)
Definition expected (p : proc) (saved : option dict) : content :=
  match pst p, saved with PWriting _, _ => CBroken | _, Some d => CDict d | _, None => CBroken end.

(* C68: at every point of every schedule, the file that a process has to itself holds the last result the process has
   completely written; it does not decode before the first one is complete and while a later one is being written *)
Theorem C68_crash cwd procs s0 sched i p f : not_started procs ->
  let start := (procs, s0) in let final := run cwd start sched in
  nth_error (fst final) i = Some p -> returned cwd p f ->
  (forall j q, j <> i -> nth_error (fst final) j = Some q -> ~ holds cwd q f) ->
  (forall q a b, In q procs -> mkdir_path (pset q) = a ++ b -> f <> cwd ++ a) ->
  lookup f (snd final) = Some (File (expected p (last_save cwd i start sched))).
Proof.
  intros NS start final N R OTHERS DIRS.
  assert (SET : forall sc, map pset (fst (run cwd start sc)) = map pset procs).
  { induction sc as [|e sc IH] using rev_ind; [reflexivity|]. rewrite run_snoc, cstep_settings. auto. }
  assert (DIRS' : forall sc q a b, In q (fst (run cwd start sc)) -> mkdir_path (pset q) = a ++ b -> f <> cwd ++ a).
  { intros sc q a b I. assert (J : In (pset q) (map pset procs)) by (rewrite <- (SET sc); apply in_map; auto).
    apply in_map_iff in J. destruct J as [q' [<- J]]. apply DIRS; auto. }
  assert (G : forall sc, (forall j q, j <> i -> nth_error (fst (run cwd start sc)) j = Some q -> ~ holds cwd q f) ->
    forall p, nth_error (fst (run cwd start sc)) i = Some p ->
      (about_to_create cwd p f -> lookup f (snd (run cwd start sc)) = None) /\
      ((forall id, pst p <> PDone id /\ pst p <> PWriting id) -> last_save cwd i start sc = None) /\
      (returned cwd p f -> lookup f (snd (run cwd start sc)) = Some (File (expected p (last_save cwd i start sc))))).
  { clear final N R OTHERS p. induction sc as [|e sc IH] using rev_ind; intros OTHERS p N.
    - simpl in N. apply nth_error_In in N. unfold not_started in NS. rewrite Forall_forall in NS. destruct (NS p N) as [k J]. split; [|split].
      + intros [id [_ H]]. congruence.
      + reflexivity.
      + intros [id [_ H]]. rewrite J in H. intuition discriminate.
    - assert (O' : forall j q, j <> i -> nth_error (fst (run cwd start sc)) j = Some q -> ~ holds cwd q f).
      { intros j q D Nq Hq. destruct (cstep_holding cwd (run cwd start sc) e j q f Nq Hq) as [q' [Nq' Hq']].
        rewrite <- run_snoc in Nq'. apply (OTHERS j q' D Nq' Hq'). }
      specialize (IH O'). assert (LS := last_save_snoc cwd i start sc e). rewrite LS. clear LS.
      assert (D' := DIRS' sc). rewrite run_snoc in N, OTHERS |- *.
      destruct (run cwd start sc) as [ps s] eqn:C. cbn [fst snd] in *.
      destruct (cstep_cases cwd ps s e) as [[Nn Es]|[q [st [s' [Nq [E Es]]]]]]; rewrite Es in *; cbn [fst snd] in *.
      + assert (Ne : fst e <> i) by congruence. rewrite N. destruct (IH p N) as [A [B Cc]].
        replace (match pst p with PWriting _ => if fst e =? i then Some (snd e) else last_save cwd i start sc | _ => last_save cwd i start sc end)
          with (last_save cwd i start sc); auto. destruct (pst p); auto. destruct (Nat.eqb_spec (fst e) i); [contradiction|auto].
      + rewrite nth_update_nth in N. destruct (Nat.eqb_spec (fst e) i) as [Ei|Ne].
        * rewrite Ei in Nq. rewrite Nq in N. injection N as <-. rewrite Nq. destruct (IH q Nq) as [A [B Cc]].
          unfold pstep in E. destruct (pst q) as [k|k|k|k|k|] eqn:Pq.
          -- assert (LN : last_save cwd i start sc = None) by (apply B; intros; split; discriminate). rewrite LN.
             destruct (mkdirs cwd (mkdir_path (pset q)) s); injection E as <- <-; (split; [|split]); auto; intros [id [_ H]]; simpl in H; intuition discriminate.
          -- assert (LN : last_save cwd i start sc = None) by (apply B; intros; split; discriminate). rewrite LN.
             destruct (exists_ (cwd ++ out_file (pset q) k) s) eqn:X; injection E as <- <-; (split; [|split]); auto.
             ++ intros [id [_ H]]. discriminate H.
             ++ intros [id [_ H]]. simpl in H. intuition discriminate.
             ++ intros [id [F H]]. simpl in F, H. injection H as <-. subst f. apply exists_lookup. auto.
             ++ intros [id [_ H]]. simpl in H. intuition discriminate.
          -- assert (LN : last_save cwd i start sc = None) by (apply B; intros; split; discriminate). rewrite LN.
             injection E as <- <-. (split; [|split]); auto.
             ++ intros [id [_ H]]. discriminate H.
             ++ intros [id [F H]]. simpl in F, H. destruct H as [H|H]; [|discriminate]. injection H as <-. subst f.
                assert (L : lookup (cwd ++ out_file (pset q) k) s = None) by (apply A; exists k; auto).
                unfold touch. rewrite (proj2 (exists_lookup _ _) L). rewrite lookup_write_same. reflexivity.
          -- injection E as <- <-. (split; [|split]).
             ++ intros [id [_ H]]. discriminate H.
             ++ intros H. destruct (H k) as [_ H']. simpl in H'. congruence.
             ++ intros [id [F H]]. simpl in F, H. destruct H as [H|H]; [discriminate|]. injection H as <-. subst f.
                rewrite lookup_write_same. reflexivity.
          -- injection E as <- <-. (split; [|split]).
             ++ intros [id [_ H]]. discriminate H.
             ++ intros H. destruct (H k) as [H' _]. simpl in H'. congruence.
             ++ intros [id [F H]]. simpl in F, H. destruct H as [H|H]; [|discriminate]. injection H as <-. subst f.
                rewrite lookup_write_same. unfold expected. simpl. auto.
          -- assert (LN : last_save cwd i start sc = None) by (apply B; intros; split; discriminate). rewrite LN.
             injection E as <- <-. (split; [|split]); auto; intros [id [_ H]]; simpl in H; intuition discriminate.
        * rewrite N. destruct (IH p N) as [A [B Cc]].
          assert (FR : lookup f s' = lookup f s).
          { apply (pstep_other _ _ _ _ _ _ f E).
            - apply (O' (fst e)); auto.
            - intros a b. apply (D' q a b). eapply nth_error_In; eauto. }
          replace (match pst p with PWriting _ => last_save cwd i start sc | _ => last_save cwd i start sc end)
            with (last_save cwd i start sc); [rewrite FR; auto|]. destruct (pst p); auto. }
  destruct (G sched OTHERS p N) as [_ [_ H]]. apply H. exact R.
Qed.
