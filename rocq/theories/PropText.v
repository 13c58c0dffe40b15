(** * PropText: C78, check matrices and results as text *)
From Coq Require Import List Arith Bool Ascii String ZArith QArith Lia.
From Verif Require Import TextModel TextProofs.
Import ListNotations.
Local Open Scope nat_scope.

(** C78: a file of lines of numbers is read as the matrix of these lines, whatever the blanks and the signs and with or without a newline
    at the end; a number is an entry 1 when it is not 0 *)
Theorem C78_reads : forall ls M, Forall2 row_text ls M -> Forall one_line ls ->
  importGf2MatrixFromFile (Some (unlines ls)) = Ok M /\
  (forall l r, row_text l r -> one_line l -> l <> [] -> importGf2MatrixFromFile (Some (unlines ls ++ l)) = Ok (M ++ [r])).
Proof. intros ls M H Ho. unfold importGf2MatrixFromFile. split.
  - rewrite <- (app_nil_r (unlines ls)), getlines_unlines by auto. cbn [getlines]. rewrite app_nil_r. f_equal. now apply rows_read.
  - intros l r Hl Hol Hne. rewrite getlines_unlines by auto. rewrite (getlines_last l) by auto. rewrite map_app, (rows_read ls M) by auto.
    cbn [map]. now rewrite (row_read l r). Qed.

(** the matrix written with a blank between entries is read back, ragged or not *)
Definition spaced (r : list bool) : text := concat (map (fun b : bool => [" "%char; if b then "1"%char else "0"%char]) r).
Lemma spaced_row r : row_text (spaced r) r.
Proof. induction r as [|b r IH]; [constructor; constructor|]. unfold spaced in *. cbn [map concat].
  assert (Hd : digits [if b then "1"%char else "0"%char] (if b then 1 else 0)%Z) by (destruct b; [exact (dig_one 1 ltac:(lia)) | exact (dig_one 0 ltac:(lia))]).
  assert (Hz : fits (if b then 1 else 0)%Z) by (destruct b; unfold fits; lia).
  assert (Hb : blanks [" "%char]) by (constructor; [now left | constructor]).
  assert (Hn : no_digit (concat (map (fun b : bool => [" "%char; if b then "1"%char else "0"%char]) r))) by (apply hd_no_digit; destruct r; cbn; auto).
  pose proof (rt_cons [" "%char] [if b then "1"%char else "0"%char] _ _ r Hb (num_bare _ _ Hd) Hz Hn IH) as H.
  destruct b; exact H. Qed.
Lemma spaced_line r : one_line (spaced r).
Proof. intros Hi. unfold spaced in Hi. apply in_concat in Hi. destruct Hi as (x & Hx & Hi). apply in_map_iff in Hx. destruct Hx as (b & <- & _).
  destruct b, Hi as [E | [E | []]]; discriminate E. Qed.
Theorem C78_roundtrip : forall M, importGf2MatrixFromFile (Some (unlines (map spaced M))) = Ok M.
Proof. intros M. apply C78_reads.
  - induction M as [|r M IH]; [constructor|]. cbn. constructor; [apply spaced_row | auto].
  - apply Forall_forall. intros l Hl. apply in_map_iff in Hl. destruct Hl as (r & <- & _). apply spaced_line. Qed.

(** what is not a number ends the line in silence *)
Theorem C78_stops : forall l r g, row_text l r -> one_line g -> no_number g -> readRow (l ++ g) = r.
Proof. exact row_stops. Qed.
(** so does a number out of the range of [int], *)
Theorem C78_overflow : forall l r b t z g, row_text l r -> blanks b -> numeral t z -> ~ fits z -> no_digit g -> (l = [] \/ no_digit (b ++ t ++ g)) ->
  readRow (l ++ b ++ t ++ g) = r.
Proof. exact row_large. Qed.
(** and that is all that can happen: every line is numbers, followed by what is no number or a number out of range *)
Theorem C78_every_line : forall s, one_line s -> exists l g, s = l ++ g /\ row_text l (readRow s) /\
  (no_number g \/ exists b t z g', g = b ++ t ++ g' /\ blanks b /\ numeral t z /\ ~ fits z /\ no_digit g').
Proof. exact row_always. Qed.

(** a row written with commas is read as its first entry; *)
Theorem C78_commas : forall b r, r <> [] -> readRow (showBits (b :: r)) = [b].
Proof. intros b r Hr. destruct r as [|c r]; [congruence|]. cbn [showBits]. 
  assert (Hd : digits (showBit b) (if b then 1 else 0)%Z) by (destruct b; [exact (dig_one 1 ltac:(lia)) | exact (dig_one 0 ltac:(lia))]).
  replace [b] with [negb ((if b then 1 else 0) =? 0)%Z] by now destruct b.
  replace (showBit b ++ [","%char] ++ _) with (([] ++ showBit b ++ []) ++ (","%char :: showBits (c :: r))) by (cbn [app]; now rewrite app_nil_r).
  apply row_stops.
  - constructor; [constructor | now constructor | destruct b; unfold fits; lia | intros d s' _ Ed; discriminate Ed | constructor; constructor].
  - intros [E | Hi]; [discriminate E | now apply showBits_one_line in Hi].
  - apply no_number_comma. Qed.
(** written without anything between the entries (a row of an alist or "101") it is one entry, and none at all when it is too long *)
Definition glued (r : list bool) : text := map (fun b : bool => if b then "1"%char else "0"%char) r.
Lemma glued_digits r : r <> [] -> exists z, digits (glued r) z /\ (if existsb (fun b => b) r then 1 <= z else z = 0)%Z /\ (z < 2 * 10 ^ Z.of_nat (List.length r - 1))%Z /\
  (forall r', r = true :: r' -> 10 ^ Z.of_nat (List.length r - 1) <= z)%Z.
Proof. induction r as [|b r IH] using rev_ind; [congruence|]. intros _.
  assert (Hd : digits [if b then "1"%char else "0"%char] (if b then 1 else 0)%Z) by (destruct b; [exact (dig_one 1 ltac:(lia)) | exact (dig_one 0 ltac:(lia))]).
  unfold glued in *. rewrite map_app, existsb_app. cbn [map existsb]. rewrite orb_false_r.
  destruct r as [|a r].
  - exists (if b then 1 else 0)%Z. cbn [app map existsb List.length]. split; [exact Hd|]. cbn. destruct b; (split; [lia|]; split; [lia|]; intros r' Er; try discriminate Er; lia).
  - destruct IH as (z & Hz & Hb & Hu & Hl); [discriminate|]. exists (10 * z + (if b then 1 else 0))%Z.
    assert (Ep : (10 ^ Z.of_nat (List.length ((a :: r) ++ [b]) - 1) = 10 * 10 ^ Z.of_nat (List.length (a :: r) - 1))%Z).
    { rewrite app_length. cbn [List.length]. replace (S (List.length r) + 1 - 1) with (S (S (List.length r) - 1)) by lia. rewrite Nat2Z.inj_succ, Z.pow_succ_r; lia. }
    split; [destruct b; [exact (dig_more _ z 1 Hz ltac:(lia)) | exact (dig_more _ z 0 Hz ltac:(lia))]|]. rewrite Ep.
    split; [destruct (existsb (fun b0 : bool => b0) (a :: r)), b; cbn [orb]; lia|]. split; [destruct b; lia|].
    intros r' Er. cbn [app] in Er. injection Er as -> Er. specialize (Hl r eq_refl). destruct b; lia. Qed.
Theorem C78_glued : forall r, r <> [] ->
  (List.length r <= 10 -> readRow (glued r) = [existsb (fun b => b) r]) /\
  (forall r', r = true :: r' -> 10 < List.length r -> readRow (glued r) = []).
Proof. intros r Hr. destruct (glued_digits r Hr) as (z & Hz & Hb & Hu & Hl).
  assert (Hn : no_digit []) by (intros d s' _ Ed; discriminate Ed). split.
  - intros H10. replace [existsb (fun b => b) r] with [negb (z =? 0)%Z].
    2:{ f_equal. destruct (existsb (fun b => b) r); [apply negb_true_iff, Z.eqb_neq; lia | now rewrite Hb]. }
    replace (glued r) with ([] ++ glued r ++ []) by (cbn [app]; now rewrite app_nil_r). apply row_read.
    constructor; [constructor | now constructor | | exact Hn | constructor; constructor].
    assert (10 ^ Z.of_nat (List.length r - 1) <= 10 ^ 9)%Z by (apply Z.pow_le_mono_r; lia).
    assert (0 <= z)%Z by (destruct (existsb (fun b => b) r); lia). unfold fits. lia.
  - intros r' Er H10. specialize (Hl r' Er). assert (10 ^ 10 <= 10 ^ Z.of_nat (List.length r - 1))%Z by (apply Z.pow_le_mono_r; lia).
    replace (glued r) with ([] ++ [] ++ glued r ++ []) by (cbn [app]; now rewrite app_nil_r).
    apply (row_large [] [] [] (glued r) z []); auto; [constructor; constructor | constructor | now constructor | unfold fits; lia]. Qed.

(** ** Codes from files *)

(** Code(path) on a file of lines of numbers: the code of the matrix, when the first line has an entry; *)
Theorem C78_code : forall fs path ls M, path <> EmptyString -> fs path = Some (unlines ls) -> Forall2 row_text ls M -> Forall one_line ls ->
  codeFromPath fs path = match M with (_ :: _) :: _ => Ok (codeZ M) | _ => Err QeccException end.
Proof. intros fs path ls M Hp Hf H Ho. unfold codeFromPath, pcmFromFile. apply String.eqb_neq in Hp. rewrite Hp, Hf. cbn [bind].
  pose proof (proj1 (C78_reads ls M H Ho)) as E. unfold importGf2MatrixFromFile in E. injection E as ->. now destruct M as [|[|b r] M]. Qed.
(** and from two files, when moreover the first lines have the same number of entries (nothing else is compared) *)
Theorem C78_code2 : forall fs pX pZ lx lz MX MZ, pX <> EmptyString -> pZ <> EmptyString -> fs pX = Some (unlines lx) -> fs pZ = Some (unlines lz) ->
  Forall2 row_text lx MX -> Forall2 row_text lz MZ -> Forall one_line lx -> Forall one_line lz ->
  codeFromPaths fs pX pZ = match MX, MZ with
    | (x :: rx) :: _, (z :: rz) :: _ => if List.length rx =? List.length rz then Ok (mkCode (Some MX) MZ (S (List.length rz))) else Err QeccException
    | _, _ => Err QeccException end.
Proof. intros fs pX pZ lx lz MX MZ HX HZ FX FZ RX RZ OX OZ. unfold codeFromPaths, pcmFromFile. apply String.eqb_neq in HX, HZ. rewrite HX, HZ, FX, FZ. cbn [bind].
  pose proof (proj1 (C78_reads lx MX RX OX)) as EX. pose proof (proj1 (C78_reads lz MZ RZ OZ)) as EZ. unfold importGf2MatrixFromFile in EX, EZ.
  injection EX as ->. injection EZ as ->. unfold codeFromFiles. destruct MX as [|[|x rx] MX], MZ as [|[|z rz] MZ]; try reflexivity.
  cbn. destruct (List.length rx =? List.length rz); reflexivity. Qed.
(** no file, no name, or nothing in the file: QeccException; reading the matrix alone, a file that is not there is an error for
    importGf2MatrixFromFile and an empty matrix for ParityCheckMatrix *)
Theorem C78_no_file : forall fs path, (path = EmptyString \/ fs path = None \/ fs path = Some []) ->
  codeFromPath fs path = Err QeccException /\
  (forall other, codeFromPaths fs path other = Err QeccException) /\ importGf2MatrixFromFile None = Err QeccException /\
  (path <> EmptyString -> pcmFromFile fs path = Ok []).
Proof. intros fs path H. unfold codeFromPaths, codeFromPath, pcmFromFile. destruct (String.eqb_spec path "") as [E | N].
  - split; [reflexivity|]. split; [reflexivity|]. split; [reflexivity|]. congruence.
  - destruct H as [H | [-> | ->]]; [congruence | |]; (split; [reflexivity|]; split; [|split; [reflexivity | reflexivity]]; intros other;
      destruct (String.eqb other ""); [reflexivity|]; cbn [bind getlines map]; unfold codeFromFiles; destruct (fs other) as [s|]; cbn [matrixPresent negb orb];
      [now rewrite orb_true_r | reflexivity]). Qed.

(** a blank line at the end of the file is a check with no entries: the code is made, and every syndrome of it throws std::out_of_range *)
Theorem C78_blank_line : forall fs path ls M n b, path <> EmptyString -> 0 < n -> Forall2 row_text ls M -> Forall one_line ls -> M <> [] ->
  Forall (fun r : list bool => List.length r = n) M -> blanks b -> fs path = Some (unlines (ls ++ [b])) ->
  exists c, codeFromPath fs path = Ok c /\ c_n c = n /\ (forall e, List.length e = n -> getXSyndrome c e = Err OutOfRange).
Proof. intros fs path ls M n b Hp Hn HM Ho Ne Hw Hb Hf. exists (codeZ (M ++ [[]])).
  destruct M as [|r M]; [congruence|]. assert (Hr : List.length r = n) by (inversion Hw; auto).
  split; [|split].
  - rewrite (C78_code fs path (ls ++ [b]) ((r :: M) ++ [[]]) Hp Hf).
    + cbn [app]. destruct r; [cbn in Hr; lia | reflexivity].
    + apply Forall2_app; auto. constructor; [now constructor | constructor].
    + apply Forall_app. split; auto. constructor; [|constructor]. intros Hi. unfold blanks in Hb. rewrite Forall_forall in Hb. specialize (Hb _ Hi).
      cbn in Hb. repeat (destruct Hb as [E | Hb]; [discriminate E|]). destruct Hb.
  - cbn. exact Hr.
  - intros e He. unfold getXSyndrome. cbn [codeZ c_n c_hX c_hZ app hd]. 
    assert (Hrows : forall rows res, Forall (fun r : vec => List.length r = n) rows -> List.length res = S (List.length rows) ->
              mulRows (rows ++ [[]]) e res = Err OutOfRange).
    { clear - He Hn. induction rows as [|q rows IHr]; intros res Hq Hl.
      - destruct res as [|a res]; [discriminate Hl|]. destruct e as [|x e]; [cbn in He; lia|]. cbn. reflexivity.
      - destruct res as [|a res]; [discriminate Hl|]. cbn [app mulRows]. destruct (accRow a q e) as [a'|x] eqn:Ea.
        + cbn [bind]. rewrite IHr; [reflexivity | inversion Hq; auto | cbn in Hl; lia].
        + cbn [bind]. clear - Ea Hq He. assert (Hlen : List.length q = List.length e) by (inversion Hq; congruence). clear Hq He. revert a q Ea Hlen.
          induction e as [|y e IHe]; intros a [|z q] Ea Hlen; try discriminate Hlen; cbn in Ea; [discriminate Ea|]. cbn in Hlen. eapply IHe; eauto. }
    replace (vectorPresent e) with true by (destruct e; [cbn in He; lia | reflexivity]). cbn [negb].
    rewrite Hr, He. rewrite Nat.ltb_irrefl.
    unfold syndromeOf, rectMatrixMultiply. replace (matrixPresent (r :: M ++ [[]])) with true by (destruct r; [cbn in Hr; lia | reflexivity]).
    replace (vectorPresent e) with true by (destruct e; [cbn in He; lia | reflexivity]). cbn [negb hd]. rewrite Hr, He, Nat.eqb_refl, Nat.ltb_irrefl. cbn [negb orb].
    apply (Hrows (r :: M)); [exact Hw|]. rewrite repeat_length. cbn [List.length]. rewrite app_length. cbn [List.length]. f_equal. apply Nat.add_1_r. Qed.
