(* Property C68, second part: which settings share a folder, and examples. *)
From Coq Require Import List String Ascii Arith Bool ZArith Lia.
From Verif Require Import StatsModel StatsProofs PropStats FilesModel FilesProofs PropFiles PropFiles2 PropOutpath.
Import ListNotations.
Local Open Scope nat_scope.
Local Open Scope string_scope.

(* the decoder that the folder records *)
Definition mode (c : settings) : string := if analog_info c then "analog_info" else if analog_tg c then "analog_tg" else "hard_syndrome".
(* depth or number of rounds: rounds counts only without a depth *)
Definition depth (c : settings) : option nat * option nat :=
  match sus_th_depth c with Some k => (Some k, None) | None => (None, rounds c) end.
Definition bias_text (c : settings) : option (bool * string) :=
  match bias c with Some (x, y, z) => Some (single_stage c, x ++ "_" ++ y ++ "_" ++ z) | None => None end.
(* the error rates as the folder shows them *)
Definition rates_text (c : settings) : option string :=
  match ser c with
  | Some v => Some ("per_" ++ per c ++ "_ser_" ++ v)
  | None => match sigma c with Some v => Some ("per_" ++ per c ++ "_sigma_" ++ v) | None => None end
  end.
Definition recorded (c : settings) :=
  (experiment c, mode c, bias_text c, depth c, repetitions c, x_meta c, z_meta c, codename c, rates_text c).

Lemma bool_text (a b : bool) : (if a then "true" else "false") = (if b then "true" else "false") -> a = b.
Proof. destruct a, b; congruence. Qed.
Lemma str_bool_inj a b : str_bool a = str_bool b -> a = b.
Proof. destruct a, b; simpl; congruence. Qed.
Lemma pre_inj (p a b : string) : p ++ a = p ++ b -> a = b.
Proof. apply string_app_inv_l. Qed.

Lemma folder_of_file c id : removelast (out_file c id) = out_dir c.
Proof. unfold out_file. apply removelast_last. Qed.

Definition part1 (c : settings) : list string :=
  match bias c with Some (x, y, z) => ["single_stage=" ++ str_bool (single_stage c); "bias=" ++ x ++ "_" ++ y ++ "_" ++ z] | None => [] end.
Definition part2 (c : settings) : list string :=
  match sus_th_depth c, rounds c with Some k, _ => ["sus_th_depth=" ++ str_nat k] | None, Some k => ["rounds=" ++ str_nat k] | None, None => [] end.
Definition part3 (c : settings) : list string := match repetitions c with Some k => ["repetitions=" ++ str_nat k] | None => [] end.
Definition part4 (c : settings) : list string :=
  ["x-meta=" ++ (if x_meta c then "true" else "false"); "z-meta=" ++ (if z_meta c then "true" else "false"); codename c].
Definition part5 (c : settings) : list string := match rates_text c with Some t => [t] | None => [] end.
Lemma out_dir_parts c : out_dir c = (["results"; experiment c; mode c] ++ part1 c ++ part2 c ++ part3 c ++ part4 c ++ part5 c)%list.
Proof.
  unfold out_dir, part1, part2, part3, part4, part5, mode, rates_text. destruct (ser c); [reflexivity|]. destruct (sigma c); reflexivity.
Qed.

(* C68: two runs write into the same folder exactly when they agree in everything the folder records: the number of rounds is
   not recorded when a depth is given, nor anything of x_sigma and z_sigma; the rates only with four digits *)
Theorem C68_same_folder c c' id id' : removelast (out_file c id) = removelast (out_file c' id') <-> recorded c = recorded c'.
Proof.
  rewrite !folder_of_file, !out_dir_parts. split.
  - intros E. injection E as Ex Em E.
    assert (P4 : (part4 c ++ part5 c = part4 c' ++ part5 c' -> x_meta c = x_meta c' /\ z_meta c = z_meta c' /\ codename c = codename c' /\ rates_text c = rates_text c')%list).
    { unfold part4, part5. cbn [app]. intros H. assert (A : "x-meta=" ++ (if x_meta c then "true" else "false") = "x-meta=" ++ (if x_meta c' then "true" else "false")) by congruence.
      assert (B : "z-meta=" ++ (if z_meta c then "true" else "false") = "z-meta=" ++ (if z_meta c' then "true" else "false")) by congruence.
      assert (C : codename c = codename c') by congruence.
      split; [apply bool_text, (pre_inj "x-meta="); auto|]. split; [apply bool_text, (pre_inj "z-meta="); auto|]. split; auto.
      destruct (rates_text c), (rates_text c'); congruence. }
    assert (P3 : (part3 c ++ part4 c ++ part5 c = part3 c' ++ part4 c' ++ part5 c' -> repetitions c = repetitions c' /\
      (part4 c ++ part5 c = part4 c' ++ part5 c'))%list).
    { unfold part3. destruct (repetitions c), (repetitions c'); unfold part4; cbn [app]; intros H; auto.
      - split; [|congruence]. f_equal. apply str_nat_inj, (pre_inj "repetitions="). congruence.
      - exfalso. apply (f_equal (hd "")) in H. discriminate H.
      - exfalso. apply (f_equal (hd "")) in H. discriminate H. }
    assert (P2 : (part2 c ++ part3 c ++ part4 c ++ part5 c = part2 c' ++ part3 c' ++ part4 c' ++ part5 c' -> depth c = depth c' /\
      (part3 c ++ part4 c ++ part5 c = part3 c' ++ part4 c' ++ part5 c'))%list).
    { unfold part2, depth. destruct (sus_th_depth c), (sus_th_depth c'), (rounds c), (rounds c'); cbn [app]; intros H; auto;
        try (exfalso; apply (f_equal (hd "")) in H; unfold part3, part4 in H; destruct (repetitions c), (repetitions c'); discriminate H);
        (split; [|congruence]);
        try (assert (Q := f_equal (hd "") H); cbn [hd] in Q; apply (pre_inj "sus_th_depth=") in Q; apply str_nat_inj in Q; congruence);
        try (assert (Q := f_equal (hd "") H); cbn [hd] in Q; apply (pre_inj "rounds=") in Q; apply str_nat_inj in Q; congruence). }
    assert (P1 : (part1 c ++ part2 c ++ part3 c ++ part4 c ++ part5 c = part1 c' ++ part2 c' ++ part3 c' ++ part4 c' ++ part5 c' -> bias_text c = bias_text c' /\
      (part2 c ++ part3 c ++ part4 c ++ part5 c = part2 c' ++ part3 c' ++ part4 c' ++ part5 c'))%list).
    { unfold part1, bias_text. destruct (bias c) as [[[x y] z]|], (bias c') as [[[x' y'] z']|]; cbn [app]; intros H; auto.
      - split; [|congruence].
        assert (A : "single_stage=" ++ str_bool (single_stage c) = "single_stage=" ++ str_bool (single_stage c')) by congruence.
        assert (B : "bias=" ++ x ++ "_" ++ y ++ "_" ++ z = "bias=" ++ x' ++ "_" ++ y' ++ "_" ++ z') by congruence.
        apply pre_inj in A. apply str_bool_inj in A. apply pre_inj in B. congruence.
      - exfalso. apply (f_equal (hd "")) in H. unfold part2, part3, part4 in H.
        destruct (sus_th_depth c'), (rounds c'), (repetitions c'); discriminate H.
      - exfalso. apply (f_equal (hd "")) in H. unfold part2, part3, part4 in H.
        destruct (sus_th_depth c), (rounds c), (repetitions c); discriminate H. }
    destruct (P1 E) as [Eb E2]. destruct (P2 E2) as [Ed E3]. destruct (P3 E3) as [Er E4]. destruct (P4 E4) as [A [B [C D]]].
    unfold recorded. congruence.
  - intros R. unfold recorded in R.
    assert (experiment c = experiment c' /\ mode c = mode c' /\ bias_text c = bias_text c' /\ depth c = depth c' /\ repetitions c = repetitions c' /\
      x_meta c = x_meta c' /\ z_meta c = z_meta c' /\ codename c = codename c' /\ rates_text c = rates_text c') as [H1 [H2 [H3 [H4 [H5 [H6 [H7 [H8 H9]]]]]]]]
      by (injection R; intros; repeat split; congruence).
    assert (Q1 : part1 c = part1 c').
    { unfold part1. unfold bias_text in H3. destruct (bias c) as [[[x y] z]|], (bias c') as [[[x' y'] z']|]; try discriminate; auto. congruence. }
    assert (Q2 : part2 c = part2 c').
    { unfold part2. unfold depth in H4. destruct (sus_th_depth c), (sus_th_depth c'), (rounds c), (rounds c'); congruence. }
    unfold part3, part4, part5. rewrite Q1, Q2, H1, H2, H5, H6, H7, H8, H9. reflexivity.
Qed.

(* with x_sigma and z_sigma the file is put beside the directory created for it: that directory stays without results *)
Theorem C68_xz_sigma c id x z : ser c = None -> xz_sigma c = Some (x, z) ->
  mkdir_path c = (removelast (out_file c id) ++ [("per_" ++ per c ++ "_x_sigma_" ++ x ++ "_z_sigma_" ++ z)%string])%list /\
  removelast (out_file c id) <> mkdir_path c.
Proof.
  intros E1 E2. rewrite folder_of_file. unfold mkdir_path, out_stem. rewrite E1, E2. cbn [append]. split; [reflexivity|].
  intros H. rewrite <- (app_nil_r (out_dir c)) in H at 1. apply app_inv_head in H. discriminate H.
Qed.
(* otherwise it is put into that directory *)
Theorem C68_in_folder c id : ser c <> None \/ xz_sigma c = None -> removelast (out_file c id) = mkdir_path c.
Proof.
  intros H. rewrite folder_of_file. unfold mkdir_path, out_stem. destruct (ser c).
  - rewrite app_nil_r. auto.
  - destruct H as [H|H]; [congruence|]. rewrite H, app_nil_r. auto.
Qed.

(* ---- examples ---- *)
Definition sample_settings : settings :=
  {| experiment := "wer_per_round"; analog_info := false; analog_tg := false; bias := Some ("1.0", "1.0", "1.0"); single_stage := true;
     sus_th_depth := None; rounds := Some 5; repetitions := None; x_meta := false; z_meta := true; codename := "lp_12";
     per := "1.000e-02"; ser := Some "2.000e-02"; sigma := None; xz_sigma := None |}.
Example C68_path : out_file sample_settings 3 =
  ["results"; "wer_per_round"; "hard_syndrome"; "single_stage=True"; "bias=1.0_1.0_1.0"; "rounds=5"; "x-meta=false"; "z-meta=true"; "lp_12";
   "per_1.000e-02_ser_2.000e-02"; "id_3.json"].
Proof. reflexivity. Qed.

(* three processes; one crashes while it writes its second result.  The merge collects the other two *)
Definition start3 : config :=
  (repeat {| pset := sample_settings; pst := PStart 0 |} 3, [([], Dir); (["w"], Dir)]).
Definition sched3 : list (nat * dict) :=
  [(0, res1); (0, res1); (0, res1); (1, res1); (1, res1); (1, res1); (1, res1); (0, res1); (2, res1); (2, res1); (2, res1); (2, res1); (2, res1);
   (0, res1); (1, res1); (1, res1); (2, res1); (2, res2); (1, res2)].
Example C68_nonvacuous :
  let c := run ["w"] start3 sched3 in
  map pst (fst c) = [PDone 0; PWriting 1; PDone 2] /\
  map (fun i => lookup ("w" :: out_file sample_settings i) (snd c)) [0; 1; 2] =
    [Some (File (CDict res1)); Some (File CBroken); Some (File (CDict res2))] /\
  not_started (fst start3) /\
  match merge_json_files [] (abs ["w"; "results"; "wer_per_round"; "hard_syndrome"; "single_stage=True"; "bias=1.0_1.0_1.0"; "rounds=5";
                                  "x-meta=false"; "z-meta=true"; "lp_12"]) (snd c) with
  | FOk s' => match lookup ["w"; "results"; "wer_per_round"; "hard_syndrome"; "single_stage=True"; "bias=1.0_1.0_1.0"; "rounds=5";
                            "x-meta=false"; "z-meta=true"; "lp_12.json"] s' with
              | Some (File (CList [m])) => get "nr_runs" m = Some (VZ 30)
              | _ => False end
  | FRaise => False end.
Proof.
  split; [reflexivity|]. split; [reflexivity|]. split; [repeat constructor; eexists; reflexivity|]. vm_compute. reflexivity.
Qed.
(* a save that is interrupted loses the result that an earlier one had written *)
Example C68_not_atomic : exists sched,
  lookup ("w" :: out_file sample_settings 0) (snd (run ["w"] start3 sched)) = Some (File (CDict res1)) /\
  lookup ("w" :: out_file sample_settings 0) (snd (run ["w"] start3 (sched ++ [(0, res2)]))) = Some (File CBroken).
Proof. exists (repeat (0, res1) 5). split; reflexivity. Qed.
Print Assumptions C68_race.
Print Assumptions C68_crash.
Print Assumptions C68_same_folder.
