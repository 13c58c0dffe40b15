(** * PropSave: C79, the text files of a constructed code *)
From Coq Require Import List Arith Bool Ascii String ZArith Lia.
From Verif Require Import SaveModel TextProofs SaveProofs PropText.
Import ListNotations.
Local Open Scope nat_scope.

(** C79: the matrix written by np.savetxt is read by importGf2MatrixFromFile as the matrix of its entries that are not zero *)
Theorem C79_saved : forall M, Forall (Forall fits) M ->
  importGf2MatrixFromFile (Some (savetxt M)) = Ok (map (map (fun z => negb (z =? 0)%Z)) M).
Proof. intros M H. rewrite savetxt_unlines. apply C78_reads.
  - induction H as [|r M Hr HM IH]; [constructor|]. cbn [map]. constructor; [|exact IH]. exact (savetxtRow_text [] r (Forall_nil _) Hr).
  - apply Forall_forall. intros l Hl. apply in_map_iff in Hl. destruct Hl as (r & <- & _). apply savetxtRow_line. Qed.

(** a code saved by save_code is the code that Code(pathTohX, pathTohZ) makes from its files, whether the logicals are saved with it or not;
    other files are as they were *)
Definition bits (M : list (list Z)) : list (list bool) := map (map (fun z => negb (z =? 0)%Z)) M.
Lemma app_name p a b : (p ++ a ++ ".txt" =? p ++ b ++ ".txt")%string = (a ++ ".txt" =? b ++ ".txt")%string.
Proof. induction p as [|c p IH]; [reflexivity|]. cbn. now rewrite Ascii.eqb_refl. Qed.
Lemma app_not_empty p a : (p ++ a ++ ".txt")%string <> EmptyString.
Proof. destruct p; [|discriminate]. destruct a; discriminate. Qed.
Theorem C79_code : forall path hx hz mx mz lxz fs, Forall (Forall fits) hx -> Forall (Forall fits) hz ->
  let fs' := save_code path hx hz mx mz lxz fs in
  codeFromPaths fs' (path ++ "hx.txt") (path ++ "hz.txt") = codeFromFiles (bits hx) (bits hz) /\
  codeFromPath fs' (path ++ "hz.txt") = (if matrixPresent (bits hz) then Ok (codeZ (bits hz)) else Err QeccException) /\
  (forall p, (forall name, In name ["hx"; "hz"; "mx"; "mz"; "lx"; "lz"]%string -> p <> (path ++ name ++ ".txt")%string) -> fs' p = fs p) /\
  (lxz = None -> forall name, In name ["lx"; "lz"]%string -> fs' (path ++ name ++ ".txt")%string = fs (path ++ name ++ ".txt")%string).
Proof. intros path hx hz mx mz lxz fs Hx Hz fs'.
  assert (Ex : fs' (path ++ "hx.txt")%string = Some (savetxt hx)).
  { unfold fs', save_code. change "hx.txt"%string with ("hx" ++ ".txt")%string. destruct lxz as [[lx lz]|]; cbn [combine fold_left fst snd]; rewrite !app_name; reflexivity. }
  assert (Ez : fs' (path ++ "hz.txt")%string = Some (savetxt hz)).
  { unfold fs', save_code. change "hz.txt"%string with ("hz" ++ ".txt")%string. destruct lxz as [[lx lz]|]; cbn [combine fold_left fst snd]; rewrite !app_name; reflexivity. }
  assert (Nx : ((path ++ "hx.txt" =? "")%string = false)) by (apply String.eqb_neq; exact (app_not_empty path "hx")).
  assert (Nz : ((path ++ "hz.txt" =? "")%string = false)) by (apply String.eqb_neq; exact (app_not_empty path "hz")).
  pose proof (C79_saved hx Hx) as Rx. pose proof (C79_saved hz Hz) as Rz. unfold importGf2MatrixFromFile in Rx, Rz. injection Rx as Rx. injection Rz as Rz.
  split; [|split; [|split]].
  - unfold codeFromPaths, pcmFromFile. rewrite Nx, Nz, Ex, Ez. cbn [bind]. rewrite Rx, Rz. reflexivity.
  - unfold codeFromPath, pcmFromFile. rewrite Nz, Ez. cbn [bind]. rewrite Rz. change (map (map (fun z => negb (z =? 0)%Z)) hz) with (bits hz).
    destruct (matrixPresent (bits hz)); reflexivity.
  - intros p Hp. assert (H : forall name, In name ["hx"; "hz"; "mx"; "mz"; "lx"; "lz"]%string -> (p =? path ++ name ++ ".txt")%string = false).
    { intros name Hi. apply String.eqb_neq. auto. }
    unfold fs', save_code. destruct lxz as [[lx lz]|]; cbn [combine fold_left fst snd]; rewrite !H by (cbn; tauto); reflexivity.
  - intros -> name Hi. unfold fs', save_code. cbn [combine fold_left fst snd]. rewrite !app_name. destruct Hi as [<- | [<- | []]]; reflexivity. Qed.

(** ** The distances *)

(** the 3D script: whatever else it prints in comments, blank lines and "key = value" lines, the last dX and dZ are recorded, with the number of
    qubits and n - rank hx - rank hz; the other keys keep their texts *)
Theorem C79_distances_3d : forall n hx hz ls bs tX tZ x z, Forall2 info_line ls bs -> Forall one_line ls ->
  bound bs (tx "dX") tX -> number tX x -> bound bs (tx "dZ") tZ -> number tZ z ->
  exists d, compute_distances_3d n hx hz (unlines ls) = Ret d /\
    dget d (tx "n") = Some (VInt (Z.of_nat n)) /\ dget d (tx "k") = Some (VInt (Z.of_nat n - Z.of_nat (rk n hx) - Z.of_nat (rk n hz))) /\
    dget d (tx "dX") = Some (VInt x) /\ dget d (tx "dZ") = Some (VInt z) /\
    (forall k, ~ In k [tx "n"; tx "k"; tx "dX"; tx "dZ"] -> (forall v, bound bs k v -> dget d k = Some (VStr v)) /\ (unbound bs k -> dget d k = None)).
Proof. intros n hx hz ls bs tX tZ x z H Ho BX NX BZ NZ. unfold compute_distances_3d. rewrite (read_lines ls bs H Ho). cbn [pbind].
  set (d0 := fold_left bind_line bs []).
  assert (EX : dget d0 (tx "dX") = Some (VStr tX)) by now apply dget_bound.
  assert (EZ : dget d0 (tx "dZ") = Some (VStr tZ)) by now apply dget_bound.
  rewrite (int_entry_ok "dX" _ tX x) by (auto; rewrite !dget_dset; exact EX). cbn [pbind].
  rewrite (int_entry_ok "dZ" _ tZ z) by (auto; rewrite !dget_dset; exact EZ). eexists. split; [reflexivity|].
  split; [rewrite !dget_dset; reflexivity|]. split; [rewrite !dget_dset; reflexivity|]. split; [rewrite !dget_dset; reflexivity|].
  split; [rewrite !dget_dset; reflexivity|]. intros k Hk. rewrite !dget_dset.
  destruct (text_eqb_spec (tx "dZ") k) as [<- | _]; [exfalso; apply Hk; cbn; tauto|]. destruct (text_eqb_spec (tx "dX") k) as [<- | _]; [exfalso; apply Hk; cbn; tauto|].
  destruct (text_eqb_spec (tx "k") k) as [<- | _]; [exfalso; apply Hk; cbn; tauto|]. destruct (text_eqb_spec (tx "n") k) as [<- | _]; [exfalso; apply Hk; cbn; tauto|].
  split; [intros v; apply dget_bound|]. intros Hu. unfold d0. now rewrite dget_unbound. Qed.

(** the 4D function wants dMX and dMZ as well: *)
Theorem C79_distances_4d : forall n hx hz ls bs tX tZ x z, Forall2 info_line ls bs -> Forall one_line ls ->
  bound bs (tx "dX") tX -> number tX x -> bound bs (tx "dZ") tZ -> number tZ z ->
  (forall tMX tMZ mx mz, bound bs (tx "dMX") tMX -> number tMX mx -> bound bs (tx "dMZ") tMZ -> number tMZ mz ->
    exists d, compute_distances n hx hz (unlines ls) = Ret d /\
      dget d (tx "n") = Some (VInt (Z.of_nat n)) /\ dget d (tx "k") = Some (VInt (Z.of_nat n - Z.of_nat (rk n hx) - Z.of_nat (rk n hz))) /\
      dget d (tx "dX") = Some (VInt x) /\ dget d (tx "dZ") = Some (VInt z) /\ dget d (tx "dMX") = Some (VInt mx) /\ dget d (tx "dMZ") = Some (VInt mz)) /\
  (unbound bs (tx "dMX") -> compute_distances n hx hz (unlines ls) = Raise KeyError).
Proof. intros n hx hz ls bs tX tZ x z H Ho BX NX BZ NZ. unfold compute_distances. rewrite (read_lines ls bs H Ho). cbn [pbind].
  set (d0 := fold_left bind_line bs []).
  assert (EX : dget d0 (tx "dX") = Some (VStr tX)) by now apply dget_bound.
  assert (EZ : dget d0 (tx "dZ") = Some (VStr tZ)) by now apply dget_bound.
  rewrite (int_entry_ok "dX" _ tX x) by (auto; rewrite !dget_dset; exact EX). cbn [pbind].
  rewrite (int_entry_ok "dZ" _ tZ z) by (auto; rewrite !dget_dset; exact EZ). cbn [pbind]. split.
  - intros tMX tMZ mx mz BMX NMX BMZ NMZ.
    assert (EMX : dget d0 (tx "dMX") = Some (VStr tMX)) by now apply dget_bound.
    assert (EMZ : dget d0 (tx "dMZ") = Some (VStr tMZ)) by now apply dget_bound.
    rewrite (int_entry_ok "dMX" _ tMX mx) by (auto; rewrite !dget_dset; exact EMX). cbn [pbind].
    rewrite (int_entry_ok "dMZ" _ tMZ mz) by (auto; rewrite !dget_dset; exact EMZ). eexists. split; [reflexivity|].
    rewrite !dget_dset. repeat split.
  - intros Hu. rewrite int_entry_none; [reflexivity|]. rewrite !dget_dset. unfold d0. change (dget (fold_left bind_line bs []) (tx "dMX") = None).
    now rewrite dget_unbound. Qed.

(** and the script prints dMx and dMz: with the script that comes with it the function raises KeyError, whatever the code, and records nothing *)
Lemma script_line k t z : ~ In "="%char k -> ~ In "#"%char k -> number t z -> one_line t -> info_line (k ++ tx " = " ++ t) (Some (k, t)).
Proof. intros Hk Gk (b & s & b' & -> & Hb & Hs & Hb') Ho.
  assert (Hbl : forall b0 x, blanks b0 -> ~ blank x -> ~ In x b0) by (intros b0 x H0 Hx Hi; unfold blanks in H0; rewrite Forall_forall in H0; auto).
  assert (Hd : forall t0 z0 x, digits t0 z0 -> isdigit x = false -> ~ In x t0).
  { intros t0 z0 x H0 Hx Hi. apply digits_spec in H0. destruct H0 as (H0 & _ & _). rewrite forallb_forall in H0. specialize (H0 _ Hi). congruence. }
  assert (Hn : forall x, isdigit x = false -> x <> "+"%char -> x <> "-"%char -> ~ In x s).
  { intros x Hx H1 H2. destruct Hs as [t0 z0 H0 | t0 z0 H0 | t0 z0 H0]; [eapply Hd; eauto | |]; intros [E | Hi]; try congruence; revert Hi; eapply Hd; eauto. }
  assert (Hx : forall x, ~ blank x -> isdigit x = false -> x <> "+"%char -> x <> "-"%char -> ~ In x (b ++ s ++ b')).
  { intros x H1 H2 H3 H4. apply app_no_in; [now apply Hbl|]. apply app_no_in; [now apply Hn | now apply Hbl]. }
  constructor; auto; (apply Hx; [intros Hbk; cbn in Hbk; repeat (destruct Hbk as [E | Hbk]; [discriminate E|]); destruct Hbk | reflexivity | discriminate | discriminate]). Qed.
Lemma key_ok k : forallb (fun c => negb (Ascii.eqb c "=") && negb (Ascii.eqb c "#") && negb (Ascii.eqb c nl)) k = true -> ~ In "="%char k /\ ~ In "#"%char k /\ one_line k.
Proof. intros H. rewrite forallb_forall in H. split; [|split]; intros Hi; specialize (H _ Hi); discriminate H. Qed.
Theorem C79_distances_4d_script : forall n hx hz tZ tX tMx tMz x z mx mz, number tX x -> number tZ z -> number tMx mx -> number tMz mz ->
  one_line tX -> one_line tZ -> one_line tMx -> one_line tMz ->
  compute_distances n hx hz (info4 tZ tX tMx tMz) = Raise KeyError.
Proof. intros n hx hz tZ tX tMx tMz x z mx mz NX NZ NMx NMz OX OZ OMx OMz.
  set (ls := [tx "dZ" ++ tx " = " ++ tZ; tx "dX" ++ tx " = " ++ tX; tx "dMx" ++ tx " = " ++ tMx; tx "dMz" ++ tx " = " ++ tMz]).
  set (bs := [Some (tx "dZ", tZ); Some (tx "dX", tX); Some (tx "dMx", tMx); Some (tx "dMz", tMz)]).
  destruct (key_ok (tx "dZ") eq_refl) as (A1 & A2 & A3). destruct (key_ok (tx "dX") eq_refl) as (B1 & B2 & B3).
  destruct (key_ok (tx "dMx") eq_refl) as (C1 & C2 & C3). destruct (key_ok (tx "dMz") eq_refl) as (D1 & D2 & D3).
  assert (O : one_line (tx " = ")) by (intros Hi; cbn in Hi; repeat (destruct Hi as [E | Hi]; [discriminate E|]); destruct Hi).
  assert (H : Forall2 info_line ls bs) by (unfold ls, bs; repeat (apply Forall2_cons; [eapply script_line; eauto|]); apply Forall2_nil).
  assert (Ho : Forall one_line ls) by (unfold ls; repeat (apply Forall_cons; [apply one_line_app; auto; apply one_line_app; auto|]); apply Forall_nil).
  replace (info4 tZ tX tMx tMz) with (unlines ls) by (unfold info4, info3, unlines, ls; cbn [map concat]; rewrite <- !app_assoc; reflexivity).
  apply (proj2 (C79_distances_4d n hx hz ls bs tX tZ x z H Ho
    ltac:(exists [Some (tx "dZ", tZ)], [Some (tx "dMx", tMx); Some (tx "dMz", tMz)]; split; [reflexivity|]; intros v' Hi; cbn in Hi; repeat (destruct Hi as [E | Hi]; [discriminate E|]); destruct Hi) NX
    ltac:(exists [], [Some (tx "dX", tX); Some (tx "dMx", tMx); Some (tx "dMz", tMz)]; split; [reflexivity|]; intros v' Hi; cbn in Hi; repeat (destruct Hi as [E | Hi]; [discriminate E|]); destruct Hi) NZ)).
  intros v Hi. cbn in Hi. repeat (destruct Hi as [E | Hi]; [discriminate E|]). destruct Hi. Qed.
(** the 3D function reads what its script prints *)
Theorem C79_distances_3d_script : forall n hx hz tZ tX x z, number tX x -> number tZ z -> one_line tX -> one_line tZ ->
  exists d, compute_distances_3d n hx hz (info3 tZ tX) = Ret d /\ dget d (tx "dX") = Some (VInt x) /\ dget d (tx "dZ") = Some (VInt z) /\
    dget d (tx "n") = Some (VInt (Z.of_nat n)) /\ dget d (tx "k") = Some (VInt (Z.of_nat n - Z.of_nat (rk n hx) - Z.of_nat (rk n hz))).
Proof. intros n hx hz tZ tX x z NX NZ OX OZ.
  set (ls := [tx "dZ" ++ tx " = " ++ tZ; tx "dX" ++ tx " = " ++ tX]).
  set (bs := [Some (tx "dZ", tZ); Some (tx "dX", tX)]).
  destruct (key_ok (tx "dZ") eq_refl) as (A1 & A2 & A3). destruct (key_ok (tx "dX") eq_refl) as (B1 & B2 & B3).
  assert (O : one_line (tx " = ")) by (intros Hi; cbn in Hi; repeat (destruct Hi as [E | Hi]; [discriminate E|]); destruct Hi).
  assert (H : Forall2 info_line ls bs) by (unfold ls, bs; repeat (apply Forall2_cons; [eapply script_line; eauto|]); apply Forall2_nil).
  assert (Ho : Forall one_line ls) by (unfold ls; repeat (apply Forall_cons; [apply one_line_app; auto; apply one_line_app; auto|]); apply Forall_nil).
  replace (info3 tZ tX) with (unlines ls) by (unfold info3, unlines, ls; cbn [map concat]; rewrite <- !app_assoc; reflexivity).
  destruct (C79_distances_3d n hx hz ls bs tX tZ x z H Ho
    ltac:(exists [Some (tx "dZ", tZ)], []; split; [reflexivity | intros v' []]) NX
    ltac:(exists [], [Some (tx "dX", tX)]; split; [reflexivity|]; intros v' Hi; cbn in Hi; repeat (destruct Hi as [E | Hi]; [discriminate E|]); destruct Hi) NZ)
    as (d & E & E1 & E2 & E3 & E4 & _). exists d. auto. Qed.

(** a last line without a newline loses its last character: a distance of two digits is recorded as its first digit *)
Theorem C79_last_line : forall ls bs k v c, Forall2 info_line ls bs -> Forall one_line ls -> one_line (k ++ tx " = " ++ v ++ [c]) ->
  ~ In "="%char k -> ~ In "="%char v -> ~ In "#"%char k -> ~ In "#"%char v -> c <> "#"%char ->
  read_info (unlines ls ++ k ++ tx " = " ++ v ++ [c]) = read_info (unlines (ls ++ [k ++ tx " = " ++ v])).
Proof. intros ls bs k v c H Ho Hl Hk Hv Gk Gv Hc. rewrite (read_lines_last ls bs k v c) by auto. symmetry. apply read_lines.
  - apply Forall2_app; auto. constructor; [now constructor | constructor].
  - apply Forall_app. split; auto. constructor; [|constructor]. rewrite !app_assoc in Hl. intros Hi. apply Hl. apply in_or_app. left. now rewrite <- app_assoc. Qed.

(** ** Witnesses *)
Example C79_nonvacuous :
  savetxt [[1; 0; -12]; [0; 1; 1]]%Z = tx "1 0 -12
0 1 1
" /\
  (exists d, compute_distances_3d 4 [[true; true; true; true]] [[true; true; true; true]] (tx "# QDistRnd
dZ = 2

dX = 1
dX = +2 # upper bound
") = Ret d /\ dget d (tx "k") = Some (VInt 2) /\ dget d (tx "dX") = Some (VInt 2) /\ dget d (tx "dZ") = Some (VInt 2)) /\
  (exists d, compute_distances_3d 4 [] [] (tx "dZ = 2
dX = 12") = Ret d /\ dget d (tx "dX") = Some (VInt 1)) /\
  compute_distances_3d 4 [] [] (tx "dZ = 2
dX = 3") = Raise ValueError /\
  compute_distances_3d 4 [] [] (tx "dZ = 2
no distance
dX = 3
") = Raise ValueError /\
  compute_distances 4 [] [] (tx "dZ = 2
dX = 3
dMx = 3
dMz = 3
") = Raise KeyError /\
  (exists d, compute_distances 4 [] [] (tx "dZ = 2
dX = 3
dMX = 3
dMZ = 4
") = Ret d /\ dget d (tx "dMZ") = Some (VInt 4)).
Proof. split; [vm_compute; reflexivity|]. split; [eexists; split; [vm_compute; reflexivity|]; repeat split; vm_compute; reflexivity|].
  split; [eexists; split; [vm_compute; reflexivity|]; vm_compute; reflexivity|].
  split; [vm_compute; reflexivity|]. split; [vm_compute; reflexivity|]. split; [vm_compute; reflexivity|].
  eexists; split; [vm_compute; reflexivity|]; vm_compute; reflexivity. Qed.

Print Assumptions C79_saved.
Print Assumptions C79_code.
Print Assumptions C79_distances_3d.
Print Assumptions C79_distances_4d.
Print Assumptions C79_distances_4d_script.
Print Assumptions C79_distances_3d_script.
Print Assumptions C79_last_line.
