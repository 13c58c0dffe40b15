(** * FlagTwo2: what measure_flagged builds *)
From Verif Require Export FlagTwo.
Local Open Scope nat_scope.

Definition supported (w t : nat) : Prop := (t = 1 /\ 1 <= w) \/ (t = 2 /\ (w = 1 \/ w = 2 \/ w = 4 \/ w = 5 \/ w = 6 \/ w = 8)).
Lemma stab_nonempty (stab : list nat) : 1 <= length stab -> stab <> [].
Proof. intros H ->. cbn in H. lia. Qed.
Lemma flagged_builds qc stab a b t z : supported (length stab) t -> ~ (t = 1 /\ length stab = 1) -> exists qc' k evs, measure_flagged qc stab a b t z = Ret qc' /\ builds qc stab a b z qc' k evs /\
  ((t = 1 /\ k = 1 /\ evs = one_flag_evs stab (qc_nq qc) (qc_nc qc)) \/
   (t = 2 /\ ((length stab < 3 /\ k = 0 /\ evs = map ED stab) \/ (length stab = 4 /\ k = 1 /\ evs = evs4 stab (qc_nq qc) (qc_nc qc)) \/ (length stab = 5 /\ k = 2 /\ evs = evs5 stab (qc_nq qc) (qc_nc qc)) \/
              (length stab = 6 /\ k = 2 /\ evs = evs6 stab (qc_nq qc) (qc_nc qc)) \/ (length stab = 8 /\ k = 3 /\ evs = evs8 stab (qc_nq qc) (qc_nc qc))))).
Proof. intros S N1. unfold measure_flagged. destruct S as [[-> W]|[-> W]].
  - cbn [Nat.eqb]. destruct (one_builds qc stab a b z) as (qc' & E & B); [lia|]. exists qc', 1, (one_flag_evs stab (qc_nq qc) (qc_nc qc)). split; [exact E|]. split; [exact B|]. left. auto.
  - cbn [Nat.eqb]. destruct W as [W|[W|[W|[W|[W|W]]]]].
    + rewrite W. cbn [Nat.ltb Nat.leb andb]. destruct (unflagged_builds qc stab a b z) as (qc' & E & B); [apply stab_nonempty; lia|]. exists qc', 0, (map ED stab). split; [exact E|]. split; [exact B|]. right. split; [reflexivity|]. left. auto.
    + rewrite W. cbn [Nat.ltb Nat.leb andb]. destruct (unflagged_builds qc stab a b z) as (qc' & E & B); [apply stab_nonempty; lia|]. exists qc', 0, (map ED stab). split; [exact E|]. split; [exact B|]. right. split; [reflexivity|]. left. auto.
    + rewrite W. cbn [Nat.ltb Nat.leb andb Nat.eqb]. destruct (four_builds qc stab a b z W) as (qc' & E & B). exists qc', 1, (evs4 stab (qc_nq qc) (qc_nc qc)). split; [exact E|]. split; [exact B|]. right. split; [reflexivity|]. right. left. auto.
    + rewrite W. cbn [Nat.ltb Nat.leb andb Nat.eqb]. destruct (two5_builds qc stab a b z W) as (qc' & E & B). exists qc', 2, (evs5 stab (qc_nq qc) (qc_nc qc)). split; [exact E|]. split; [exact B|]. right. split; [reflexivity|]. right. right. left. auto.
    + rewrite W. cbn [Nat.ltb Nat.leb andb Nat.eqb]. destruct (six_builds qc stab a b z W) as (qc' & E & B). exists qc', 2, (evs6 stab (qc_nq qc) (qc_nc qc)). split; [exact E|]. split; [exact B|]. right. split; [reflexivity|]. right. right. right. left. auto.
    + rewrite W. cbn [Nat.ltb Nat.leb andb Nat.eqb]. destruct (eight_builds qc stab a b z W) as (qc' & E & B). exists qc', 3, (evs8 stab (qc_nq qc) (qc_nc qc)). split; [exact E|]. split; [exact B|]. right. split; [reflexivity|]. right. right. right. right. auto. Qed.
Lemma flagged_raises qc stab a b t z : ~ supported (length stab) t -> measure_flagged qc stab a b t z =
  Raise (if t =? 1 then IndexError else if t =? 2 then (if length stab =? 0 then CircuitError else if length stab =? 3 then AssertionError else IndexError) else NotImplementedErr).
Proof. intros N. unfold measure_flagged. destruct (Nat.eqb_spec t 1) as [->|T1].
  - destruct stab as [|s0 rest]; [reflexivity|]. exfalso. apply N. left. cbn. split; auto. lia.
  - destruct (Nat.eqb_spec t 2) as [->|T2].
    + destruct (Nat.le_gt_cases 9 (length stab)) as [H|H].
      * destruct (Nat.ltb_spec (length stab) 3); [lia|]. destruct (Nat.eqb_spec (length stab) 4); [lia|]. destruct (Nat.eqb_spec (length stab) 6); [lia|]. destruct (Nat.eqb_spec (length stab) 8); [lia|]. cbn [andb].
        rewrite two_large by lia. destruct (Nat.eqb_spec (length stab) 0); [lia|]. destruct (Nat.eqb_spec (length stab) 3); [lia|]. reflexivity.
      * assert (W : length stab = 0 \/ length stab = 3 \/ length stab = 7) by (assert (X : forall w, length stab = w -> ~ In w [1; 2; 4; 5; 6; 8]) by (intros w E I; apply N; right; cbn in I; lia); specialize (X _ eq_refl); cbn in X; lia).
        destruct W as [W|[W|W]]; rewrite W; cbn [Nat.ltb Nat.leb Nat.eqb andb].
        -- destruct stab; [reflexivity|discriminate].
        -- unfold measure_stab_two_flagged. now rewrite W.
        -- apply two_large. lia.
    + rewrite !andb_false_r. reflexivity. Qed.
Lemma supported_dec w t : {supported w t} + {~ supported w t}.
Proof. destruct (Nat.eq_dec t 1) as [->|T1]; [destruct (le_lt_dec 1 w); [left; left; auto|right; intros [[_ H]|[H _]]; lia]|]. destruct (Nat.eq_dec t 2) as [->|T2]; [|right; intros [[H _]|[H _]]; lia].
  destruct (in_dec Nat.eq_dec w [1; 2; 4; 5; 6; 8]) as [I|I]; [left; right; split; auto; cbn in I; lia|right; intros [[H _]|[_ H]]; [lia|]; apply I; cbn; lia]. Qed.

Lemma one_flag_shape a b f m z stab : 2 <= length stab -> exists s0 mid sl, stab = s0 :: mid ++ [sl] /\ gadget z a b (one_flag_evs stab f m) = L1flag a b f m z s0 sl mid.
Proof. intros L. destruct stab as [|s0 [|s1 rest]]; cbn [length] in L; try lia. exists s0, (removelast (s1 :: rest)), (last (s1 :: rest) 0). split.
  - f_equal. symmetry. now apply removelast_last_eq.
  - unfold gadget, one_flag_evs, L1flag, pre, post. cbn [hd tl]. rewrite !flat_map_app, comp_datas. change (last (s0 :: s1 :: rest) 0) with (last (s1 :: rest) 0). rewrite <- !app_assoc. destruct z; reflexivity. Qed.
Lemma L1_incl a b f m z s0 sl mid : Forall (fun i => incl (qubits i) ((s0 :: mid ++ [sl]) ++ [a; f])) (L1flag a b f m z s0 sl mid).
Proof. set (S := s0 :: mid ++ [sl]). assert (A : In a (S ++ [a; f])) by (apply in_app_iff; right; left; auto). assert (F : In f (S ++ [a; f])) by (apply in_app_iff; right; right; left; auto).
  assert (CX : forall q, In q (S ++ [a; f]) -> incl (qubits (ancilla_cnot z q a)) (S ++ [a; f])) by (intros q I; destruct z; intros r [<-|[<-|[]]]; auto).
  assert (D : forall q, In q S -> In q (S ++ [a; f])) by (intros q I; apply in_app_iff; auto).
  assert (O : forall q, In q (S ++ [a; f]) -> incl [q] (S ++ [a; f])) by (intros q I r [<-|[]]; auto).
  unfold L1flag. unfold pre, post, b1, b2, b3, flag_init, flag_measure. apply Forall_app; split; [|apply Forall_app; split; [|apply Forall_app; split; [|apply Forall_app; split; [|apply Forall_app; split]]]].
  - destruct z; [apply Forall_nil|]. apply Forall_cons; [apply O, A|apply Forall_nil].
  - apply Forall_cons; [apply CX, D; left; auto|]. destruct z; cbn [app]; repeat apply Forall_cons; try apply Forall_nil; try (apply O; exact F); apply CX; auto.
  - apply Forall_map, Forall_forall. intros q I. apply CX, D. right. apply in_app_iff. auto.
  - apply Forall_cons; [apply CX; auto|]. apply Forall_app; split; [apply Forall_app; split; [destruct z; [apply Forall_cons; [apply O, F|]|]; apply Forall_nil|apply Forall_cons; [apply O, F|apply Forall_nil]]|]. apply Forall_cons; [|apply Forall_nil]. apply CX, D. right. apply in_app_iff. right. left. auto.
  - destruct z; [apply Forall_nil|]. apply Forall_cons; [apply O, A|apply Forall_nil].
  - apply Forall_cons; [apply O, A|apply Forall_nil]. Qed.
Lemma one_tolerates qc stab a b z : a < qc_nq qc -> NoDup stab -> (forall q, In q stab -> q < qc_nq qc /\ q <> a) -> 2 <= length stab ->
  tolerates (qc_nq qc + 1) stab a (seq (qc_nq qc) 1) (gadget z a b (one_flag_evs stab (qc_nq qc) (qc_nc qc))) 1.
Proof. intros An ND HS W. set (f := qc_nq qc) in *. set (m := qc_nc qc). assert (DT := one_datas stab f m W). assert (OK := one_ok qc stab). fold f m in OK. change (seq f 1) with [f] in *.
  assert (DO : data_ok (f + 1) a [f] stab) by (intros q I; destruct (HS q I); split; [lia|split; auto]; intros [J|[]]; lia).
  destruct (one_flag_shape a b f m z stab W) as (s0 & mid & sl & ES & EG). rewrite EG. subst stab.
  apply (tolerates_intro (f + 1) z).
  - rewrite <- EG. rewrite <- DT at 1. apply gadget_measures; auto.
    + lia.
    + intros g [<-|[]]. lia.
    + intros [J|[]]. lia.
    + repeat constructor. intros [].
    + now rewrite DT.
    + now rewrite DT.
  - lia.
  - exact DO.
  - apply L1_ok; auto; lia.
  - apply L1_incl.
  - intros F WF. apply (one_fault (f + 1) a b f m z s0 sl mid); auto; lia. Qed.

Ltac canon_eq stab W := destr_len stab W; match goal with z : bool |- _ => destruct z end; vm_compute; rewrite ?Nat.add_0_r; reflexivity.
Lemma canon_small stab a b z f0 m0 : length stab < 3 -> gadget z a b (map ED stab) = map (ren (rho_of stab a f0) (beta_of b m0)) (gadget z (length stab) 0 (map ED (seq 0 (length stab)))).
Proof. intros W. destruct stab as [|s0 [|s1 [|? ?]]]; cbn [length] in W; try lia; destruct z; reflexivity. Qed.
Lemma canon4 stab a b z f0 m0 : length stab = 4 -> gadget z a b (evs4 stab f0 m0) = map (ren (rho_of stab a f0) (beta_of b m0)) (gadget z (length stab) 0 (evs4 (seq 0 4) 5 1)).
Proof. intros W. destr_len stab W. destruct z; cbn; rewrite ?Nat.add_0_r; reflexivity. Qed.
Lemma canon5 stab a b z f0 m0 : length stab = 5 -> gadget z a b (evs5 stab f0 m0) = map (ren (rho_of stab a f0) (beta_of b m0)) (gadget z (length stab) 0 (evs5 (seq 0 5) 6 1)).
Proof. intros W. destr_len stab W. destruct z; cbn; rewrite ?Nat.add_0_r; reflexivity. Qed.
Lemma canon6 stab a b z f0 m0 : length stab = 6 -> gadget z a b (evs6 stab f0 m0) = map (ren (rho_of stab a f0) (beta_of b m0)) (gadget z (length stab) 0 (evs6 (seq 0 6) 7 1)).
Proof. intros W. destr_len stab W. destruct z; cbn; rewrite ?Nat.add_0_r; reflexivity. Qed.
Lemma canon8 stab a b z f0 m0 : length stab = 8 -> gadget z a b (evs8 stab f0 m0) = map (ren (rho_of stab a f0) (beta_of b m0)) (gadget z (length stab) 0 (evs8 (seq 0 8) 9 1)).
Proof. intros W. destr_len stab W. destruct z; cbn; rewrite ?Nat.add_0_r; reflexivity. Qed.
Lemma two_tolerates k qc stab a b z qc' nf evs : k = 1 \/ k = 2 -> a < qc_nq qc -> NoDup stab -> (forall q, In q stab -> q < qc_nq qc /\ q <> a) -> builds qc stab a b z qc' nf evs -> stab <> [] ->
  ((length stab < 3 /\ nf = 0 /\ evs = map ED stab) \/ (length stab = 4 /\ nf = 1 /\ evs = evs4 stab (qc_nq qc) (qc_nc qc)) \/ (length stab = 5 /\ nf = 2 /\ evs = evs5 stab (qc_nq qc) (qc_nc qc)) \/
   (length stab = 6 /\ nf = 2 /\ evs = evs6 stab (qc_nq qc) (qc_nc qc)) \/ (length stab = 8 /\ nf = 3 /\ evs = evs8 stab (qc_nq qc) (qc_nc qc))) ->
  tolerates (qc_nq qc + nf) stab a (seq (qc_nq qc) nf) (gadget z a b evs) k.
Proof. intros Hk An ND HS B NE CS. destruct B as [_ _ _ OK DT _]. destruct CS as [(W & -> & ->)|[(W & -> & ->)|[(W & -> & ->)|[(W & -> & ->)|(W & -> & ->)]]]].
  - apply (canonical_tolerates k _ z stab a b (qc_nq qc) (qc_nc qc) 0 _ (map ED (seq 0 (length stab)))); auto.
    + assert (length stab = 1 \/ length stab = 2) as [-> | ->] by (destruct stab as [|? [|? [|? ?]]]; cbn [length] in *; try lia; contradiction); destruct Hk as [-> | ->], z; vm_compute; reflexivity.
    + assert (length stab = 1 \/ length stab = 2) as [-> | ->] by (destruct stab as [|? [|? [|? ?]]]; cbn [length] in *; try lia; contradiction); destruct z; vm_compute; reflexivity.
    + now apply canon_small.
  - apply (canonical_tolerates k _ z stab a b (qc_nq qc) (qc_nc qc) 1 _ (evs4 (seq 0 4) 5 1)); auto; [rewrite W; destruct Hk as [-> | ->], z; vm_compute; reflexivity|rewrite W; destruct z; vm_compute; reflexivity|now apply canon4].
  - apply (canonical_tolerates k _ z stab a b (qc_nq qc) (qc_nc qc) 2 _ (evs5 (seq 0 5) 6 1)); auto; [rewrite W; destruct Hk as [-> | ->], z; vm_compute; reflexivity|rewrite W; destruct z; vm_compute; reflexivity|now apply canon5].
  - apply (canonical_tolerates k _ z stab a b (qc_nq qc) (qc_nc qc) 2 _ (evs6 (seq 0 6) 7 1)); auto; [rewrite W; destruct Hk as [-> | ->], z; vm_compute; reflexivity|rewrite W; destruct z; vm_compute; reflexivity|now apply canon6].
  - apply (canonical_tolerates k _ z stab a b (qc_nq qc) (qc_nc qc) 3 _ (evs8 (seq 0 8) 9 1)); auto; [rewrite W; destruct Hk as [-> | ->], z; vm_compute; reflexivity|rewrite W; destruct z; vm_compute; reflexivity|now apply canon8]. Qed.
