(** * StabProofs2: constructor, syndromes, equivalence and equality of stabilizer codes. *)
From Verif Require Export StabProofs.

(** what a valid call of the constructor on strings looks like (specification used in C10) *)
Definition logicals_ok (n r : nat) (l lz lx : list sp) : Prop :=
  allq n lz /\ allq n lx /\ length lz + r <= n /\ length lx + r <= n /\
  (forall g h, In g lz -> In h l -> pcommute (snd g) (snd h)) /\
  (forall g h, In g lx -> In h l -> pcommute (snd g) (snd h)) /\
  (forall g, In g lz -> exactly_one (fun h => ~ pcommute (snd g) (snd h)) lx).

Definition nonempty_strs (L : list pystr) : Prop := L <> [] /\ Forall (fun s => s <> []) L.

Definition input_ok (n : nat) (l : list sp) (d : option Z) (Lz Lx : option (list pystr)) : Prop :=
  l <> [] /\ allq n l /\ (forall x, d = Some x -> (0 < x)%Z) /\
  match Lz, Lx with
  | None, None => True
  | Some zs, Some xs => nonempty_strs zs /\ nonempty_strs xs /\
      exists r, has_rank (2 * n + 1) (map binsp l) r /\ logicals_ok n r l (map parse zs) (map parse xs)
  | _, _ => False
  end.

Lemma map_binsp_removelast l : map (@removelast bool) (map binsp l) = map symp (map snd l).
Proof. rewrite !map_map. apply map_ext. intros a. apply removelast_bin. Qed.

Lemma allq_snd n l : allq n l -> Forall (fun P => length P = n) (map snd l).
Proof. intros H. apply Forall_forall. intros P HP. apply in_map_iff in HP as (g & <- & Hg). unfold allq in H. rewrite Forall_forall in H. auto. Qed.

Lemma check_code_correct_spec w n r l lz lx : (1 <= w)%Z -> l <> [] -> allq n l -> r <= n -> lz <> [] -> lx <> [] ->
  (exists m, allq m lz) -> (exists m, allq m lx) ->
  (check_code_correct w n (Z.of_nat n - Z.of_nat r) (map symp (map snd l)) (Some (map binsp lz)) (Some (map binsp lx)) = Ret tt
   <-> logicals_ok n r l lz lx).
Proof.
  intros Hw Nl Hl Hr Nz Nx [mz Hz] [mx Hx]. unfold check_code_correct, logicals_ok.
  rewrite !map_binsp_removelast, !map_length.
  assert (Ez : n_qubits_bin (hd [] (map binsp lz)) = mz).
  { destruct lz as [|g lz]; [congruence|]. inversion Hz; subst. simpl hd. unfold n_qubits_bin. rewrite binsp_length, half_odd. auto. }
  assert (Ex : n_qubits_bin (hd [] (map binsp lx)) = mx).
  { destruct lx as [|g lx]; [congruence|]. inversion Hx; subst. simpl hd. unfold n_qubits_bin. rewrite binsp_length, half_odd. auto. }
  assert (Uz : allq n lz -> mz = n).
  { intros H. destruct lz as [|g lz]; [congruence|]. inversion H; inversion Hz; subst; auto. }
  assert (Ux : allq n lx -> mx = n).
  { intros H. destruct lx as [|g lx]; [congruence|]. inversion H; inversion Hx; subst; auto. }
  rewrite Ez, Ex.
  destruct (Nat.eqb_spec mz n) as [->|D]; cbn [negb]; [|split; [discriminate | intros (H & _); tauto]].
  destruct (Z.ltb_spec (Z.of_nat n - Z.of_nat r) (Z.of_nat (length lz))); [split; [discriminate | intros (_ & _ & H1 & _); lia]|].
  destruct (Nat.eqb_spec mx n) as [->|D]; cbn [negb]; [|split; [discriminate | intros (_ & H1 & _); tauto]].
  destruct (Z.ltb_spec (Z.of_nat n - Z.of_nat r) (Z.of_nat (length lx))); [split; [discriminate | intros (_ & _ & _ & H1 & _); lia]|].
  assert (Nzs : map snd lz <> []) by (destruct lz; [congruence | discriminate]).
  assert (Nxs : map snd lx <> []) by (destruct lx; [congruence | discriminate]).
  assert (Nls : map snd l <> []) by (destruct l; [congruence | discriminate]).
  destruct (all_commute_spec w n (map snd lz) (map snd l) Hw Nzs Nls (allq_snd _ _ Hz) (allq_snd _ _ Hl)) as (b1 & -> & B1). cbn [pbind].
  assert (B1' : b1 = true <-> forall g h, In g lz -> In h l -> pcommute (snd g) (snd h)).
  { rewrite B1. split; intros H1.
    - intros g h Hg Hh. apply H1; apply in_map; auto.
    - intros P Q HP HQ. apply in_map_iff in HP as (g & <- & Hg). apply in_map_iff in HQ as (h & <- & Hh). auto. }
  destruct b1; cbn [negb]; [|split; [discriminate | intros (_ & _ & _ & _ & H1 & _); apply B1' in H1; discriminate]].
  destruct (all_commute_spec w n (map snd lx) (map snd l) Hw Nxs Nls (allq_snd _ _ Hx) (allq_snd _ _ Hl)) as (b2 & -> & B2). cbn [pbind].
  assert (B2' : b2 = true <-> forall g h, In g lx -> In h l -> pcommute (snd g) (snd h)).
  { rewrite B2. split; intros H1.
    - intros g h Hg Hh. apply H1; apply in_map; auto.
    - intros P Q HP HQ. apply in_map_iff in HP as (g & <- & Hg). apply in_map_iff in HQ as (h & <- & Hh). auto. }
  destruct b2; cbn [negb]; [|split; [discriminate | intros (_ & _ & _ & _ & _ & H1 & _); apply B2' in H1; discriminate]].
  rewrite (smp_spec w n) by (auto using allq_snd). cbn [pbind].
  assert (B3 : rowSumsOne (map (fun P => map (fun Q => Z.b2z (sympl P Q)) (map snd lx)) (map snd lz)) = true <->
     forall g, In g lz -> exactly_one (fun h => ~ pcommute (snd g) (snd h)) lx).
  { unfold rowSumsOne. rewrite forallb_forall. split.
    - intros H1 g Hg. specialize (H1 (map (fun Q => Z.b2z (sympl (snd g) Q)) (map snd lx))).
      rewrite Z.eqb_eq, rowsum_b2z in H1. rewrite exactly_one_map in H1.
      eapply exactly_one_iff; [|apply H1; apply in_map_iff; exists (snd g); split; auto; apply in_map; auto].
      intros h Hh. unfold allq in *. rewrite Forall_forall in Hz, Hx. simpl. rewrite pcommute_sympl by (rewrite Hz, Hx; auto). 
      destruct (sympl (snd g) (snd h)); split; auto; congruence.
    - intros H1 row Hrow. apply in_map_iff in Hrow as (P & <- & HP). apply in_map_iff in HP as (g & <- & Hg).
      rewrite Z.eqb_eq, rowsum_b2z, exactly_one_map. eapply exactly_one_iff; [|apply (H1 g Hg)].
      intros h Hh. unfold allq in *. rewrite Forall_forall in Hz, Hx. simpl. rewrite pcommute_sympl by (rewrite Hz, Hx; auto). 
      destruct (sympl (snd g) (snd h)); split; auto; congruence. }
  destruct (rowSumsOne _) eqn:E3; cbn [negb].
  - split; auto. intros _. repeat split; auto; try lia; try (now apply B1'); try (now apply B2'); now apply B3.
  - split; [discriminate|]. intros (_ & _ & _ & _ & _ & _ & H1). apply B3 in H1. congruence. Qed.

Definition optStrs (L : option (list pystr)) : option paulis := option_map Strs L.

Definition built (n : nat) (l : list sp) (d : option Z) (Lz Lx : option (list pystr)) : stabcode :=
  mkStab n (map binsp l) (map symp (map snd l)) (Z.of_nat n - Z.of_nat (rk (2 * n + 1) (map binsp l)))
    (match d with Some x => x | None => 1%Z end)
    (option_map (fun L => map binsp (map parse L)) Lz) (option_map (fun L => map binsp (map parse L)) Lx).


Lemma map_printsp_inj l l' : Forall (fun g => printsp g <> []) l -> Forall (fun g => printsp g <> []) l' -> map printsp l = map printsp l' -> l = l'.
Proof. intros H; revert l'; induction H as [|g l Hg Hl IH]; intros [|g' l'] H' E; try discriminate; auto.
  simpl in E. injection E as E1 E2. inversion H'; subst. f_equal; [|apply IH; auto].
  rewrite <- (parse_print g), <- (parse_print g'), E1; auto. Qed.

Lemma check_code_correct_spec' w n l lz lx : (1 <= w)%Z -> l <> [] -> allq n l -> lz <> [] -> lx <> [] ->
  (exists m, allq m lz) -> (exists m, allq m lx) ->
  (check_code_correct w n (Z.of_nat n - Z.of_nat (rk (2*n+1) (map binsp l))) (map symp (map snd l)) (Some (map binsp lz)) (Some (map binsp lx)) = Ret tt
   <-> logicals_ok n (rk (2*n+1) (map binsp l)) l lz lx).
Proof. intros Hw Nl Hl Nz Nx Mz Mx. destruct (le_lt_dec (rk (2*n+1) (map binsp l)) n) as [Hr|Hr].
  - apply check_code_correct_spec; auto.
  - split.
    + unfold check_code_correct. destruct (negb _); [discriminate|]. rewrite map_length.
      destruct (Z.ltb_spec (Z.of_nat n - Z.of_nat (rk (2*n+1) (map binsp l))) (Z.of_nat (length lz))); [discriminate|].
      destruct lz; [congruence | simpl in *; lia].
    + intros (_ & _ & H & _). lia. Qed.

Theorem ctor_iff w gs d Lz Lx c : (1 <= w)%Z ->
  (StabilizerCode w (Strs gs) d (optStrs Lz) (optStrs Lx) = Ret c <->
   exists n l, gs = map printsp l /\ Forall (fun g => printsp g <> []) l /\
     (forall g h, In g gs -> In h gs -> length g = length h) /\ input_ok n l d Lz Lx /\ c = built n l d Lz Lx).
Proof.
  intros Hw. unfold StabilizerCode.
  destruct (check_stabilizer_generators (Strs gs)) as [[]|e] eqn:EC; cbn [pbind].
  2: { split; [discriminate|]. intros (n & l & Hgs & F & HL & (Nl & _) & _). exfalso.
       assert (check_stabilizer_generators (Strs gs) = Ret tt); [|congruence]. apply strs_valid. split; [|eauto].
       subst gs. destruct l; [congruence | discriminate]. }
  apply strs_valid in EC as (Ngs & HL & l & Hgs & F).
  assert (Nl : l <> []) by (intros ->; subst; auto).
  assert (EP : map parse gs = l).
  { subst gs. rewrite map_map. rewrite <- (map_id l) at 2. apply map_ext_in. intros g Hg. rewrite Forall_forall in F. apply parse_print; auto. }
  assert (En : n_qubits_str (hd [] gs) = Ret (length (snd (hd (NoSign, []) l)))).
  { destruct l as [|g l']; [congruence|]. subst gs. inversion F; subst. simpl hd. destruct g as [sg P]. simpl.
    unfold printsp in *; simpl in *. destruct sg; simpl; rewrite ?map_length; auto.
    destruct P as [|p P]; [contradiction H1; reflexivity|]. simpl. rewrite isSign_letter, map_length. reflexivity. }
  rewrite En. cbn [pbind].
  destruct (paulis_to_binary (Strs gs)) as [g|e] eqn:EB; cbn [pbind].
  2: { split; [discriminate|]. intros (n & l' & Hgs' & F' & _ & (Nl' & Hq & _) & _). exfalso.
       assert (l' = l) as -> by (apply map_printsp_inj; auto; congruence).
       assert (exists r, paulis_to_binary (Strs gs) = Ret r) as [r Er]; [|congruence].
       eexists. apply paulis_to_binary_strs; auto. split; [|split; [reflexivity | exists n; rewrite EP; auto]].
       subst gs. apply Forall_forall. intros s Hs. apply in_map_iff in Hs as (x & <- & Hx). rewrite Forall_forall in F. auto. }
  apply paulis_to_binary_strs in EB as (_ & -> & n & Hn); auto. rewrite EP in *.
  rewrite dropPhase_binsp by auto. cbn [pbind].
  assert (Hhd : length (snd (hd (NoSign, []) l)) = n).
  { destruct l as [|g l']; [congruence|]. inversion Hn; auto. }
  assert (HW : npWidth (map binsp l) = 2 * n + 1).
  { destruct l as [|g l']; [congruence|]. unfold npWidth. simpl hd. rewrite binsp_length. simpl in Hhd. rewrite Hhd. auto. }
  rewrite Hhd, HW.
  assert (W : wf (2 * n + 1) (map binsp l)) by now apply wf_binsp.
  assert (UN : forall n' l', gs = map printsp l' -> Forall (fun g => printsp g <> []) l' -> allq n' l' -> l' = l /\ n' = n).
  { intros n' l' Hg' F' Hq. assert (l' = l) as -> by (apply map_printsp_inj; auto; congruence). split; auto.
    destruct l as [|g l']; [congruence|]. inversion Hn; inversion Hq; subst; auto. }
  destruct (match d with Some d0 => (d0 <=? 0)%Z | None => false end) eqn:ED; cbn [pbind].
  { split; [discriminate|]. intros (n' & l' & _ & _ & _ & (_ & _ & Hd & _) & _). destruct d as [x|]; [|discriminate].
    specialize (Hd x eq_refl). apply Z.leb_le in ED. lia. }
  assert (Hd : forall x, d = Some x -> (0 < x)%Z).
  { intros x ->. apply Z.leb_gt in ED. lia. }
  assert (RK : has_rank (2 * n + 1) (map binsp l) (rk (2 * n + 1) (map binsp l))) by now apply rk_correct.
  assert (UR : forall r, has_rank (2 * n + 1) (map binsp l) r -> r = rk (2 * n + 1) (map binsp l)) by (intros; now apply rk_unique).
  destruct Lz as [zs|]; cbn [optStrs option_map] in *.
  - destruct (optLogicals (Some (Strs zs))) as [oz|e] eqn:EZ; cbn [pbind].
    2: { split; [discriminate|]. intros (n' & l' & Hg' & F' & _ & (Nl' & Hq & _ & HLL) & _). destruct (UN n' l' Hg' F' Hq) as [-> ->].
         destruct Lx as [xs|]; [|destruct HLL]. destruct HLL as ((Nz & Fz) & _ & r & _ & (Hz & _)). exfalso.
         assert (optLogicals (Some (Strs zs)) = Ret (Some (map binsp (map parse zs)))); [|congruence].
         apply optLogicals_strs. eauto. }
    apply optLogicals_strs in EZ as (Nz & Fz & -> & Mz).
    destruct Lx as [xs|]; cbn [optStrs option_map] in *.
    + destruct (optLogicals (Some (Strs xs))) as [ox|e] eqn:EX; cbn [pbind].
      2: { split; [discriminate|]. intros (n' & l' & Hg' & F' & _ & (Nl' & Hq & _ & HLL) & _). destruct (UN n' l' Hg' F' Hq) as [-> ->].
           destruct HLL as (_ & (Nx & Fx) & r & _ & (_ & Hx & _)). exfalso.
           assert (optLogicals (Some (Strs xs)) = Ret (Some (map binsp (map parse xs)))); [|congruence].
           apply optLogicals_strs. eauto. }
      apply optLogicals_strs in EX as (Nx & Fx & -> & Mx).
      assert (Nz' : map parse zs <> []) by (destruct zs; [congruence | discriminate]).
      assert (Nx' : map parse xs <> []) by (destruct xs; [congruence | discriminate]).
      pose proof (check_code_correct_spec' w n l (map parse zs) (map parse xs) Hw Nl Hn Nz' Nx' Mz Mx) as CC.
      destruct (check_code_correct _ _ _ _ _ _) as [[]|e] eqn:ECC; cbn [pbind].
      * split.
        -- intros H. injection H as <-. exists n, l. repeat split; auto. exists (rk (2*n+1) (map binsp l)). split; auto. now apply CC.
        -- intros (n' & l' & Hg' & F' & _ & (Nl' & Hq & _) & ->). destruct (UN n' l' Hg' F' Hq) as [-> ->]. reflexivity.
      * split; [discriminate|]. intros (n' & l' & Hg' & F' & _ & (Nl' & Hq & _ & HLL) & _). destruct (UN n' l' Hg' F' Hq) as [-> ->].
        destruct HLL as (_ & _ & r & Hr & HLL). rewrite (UR r Hr) in HLL. apply CC in HLL. discriminate.
    + cbn. split; [discriminate|]. intros (n' & l' & Hg' & F' & _ & (Nl' & Hq & _ & HLL) & _). destruct HLL.
  - destruct Lx as [xs|]; cbn [optStrs option_map optLogicals pbind] in *.
    + split; [|intros (n' & l' & Hg' & F' & _ & (Nl' & Hq & _ & HLL) & _); destruct HLL].
      match goal with |- context [pbind ?x _] => destruct x as [ox|] eqn:EX end; cbn [pbind]; [|discriminate].
      change (optLogicals (Some (Strs xs)) = Ret ox) in EX. apply optLogicals_strs in EX as (_ & _ & -> & _). cbn. discriminate.
    + cbn. split.
      * intros H. injection H as <-. exists n, l. repeat split; auto.
      * intros (n' & l' & Hg' & F' & _ & (Nl' & Hq & _) & ->). destruct (UN n' l' Hg' F' Hq) as [-> ->]. reflexivity. Qed.
