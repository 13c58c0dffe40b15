(** * HexDist2: the distance of the hexagonal color code of every odd distance (see HexDist for the argument). *)
From Verif Require Export ColorDist.
Local Open Scope Z_scope.

Section HexLower.
  Variables (d : Z) (data anc : list coord) (v : vec).
  Hypothesis E : hex_enum d data anc.
  Hypothesis Hodd : d mod 2 = 1.
  Hypothesis Hpos : 0 < d.
  Hypothesis Kv : in_kernel (length data) (map (frow data) (map hex_nb anc)) v.
  Hypothesis Nv : ~ span (length data) (map (frow data) (map hex_nb anc)) v.
  Let m := Z.to_nat ((d - 1) / 2).
  Let z := Z.of_nat.
  Let w := vat data v.
  Let ND : NoDup data := hex_data_nodup d data anc E.
  Lemma hl_M : hexM d = 3 * z m + 1.
  Proof. subst z. rewrite (proj2 (proj1 (hexM_mod d) Hodd Hpos)). subst m. zmod. Qed.
  Lemma hl_out p : ~ hexd (3 * z m + 1) p -> w p = false.
  Proof. intros H. apply vat_out; auto. rewrite (hex_data_iff d data anc E). now rewrite hl_M. Qed.
  Lemma hl_face x y : hexa (3 * z m + 1) (x, y) -> xorl (map w (hex_nb (x, y))) = false.
  Proof. intros H. unfold w. rewrite <- odd_filter, <- (vat_face data v ND (proj1 Kv)) by apply hex_nb_NoDup. apply Kv.
    apply in_map, in_map. rewrite (hex_anc_iff d data anc E). now rewrite hl_M. Qed.

  Definition hl_tri : tri := mkTri
    (fun k t => w (3 * z k + 6 * z t, 3 * z k)) (fun k t => w (3 * z k + 6 * z t + 4, 3 * z k))
    (fun k t => w (3 * z k + 1 + 6 * z t, 3 * z k + 1)) (fun k t => w (3 * z k + 3 + 6 * z t, 3 * z k + 1))
    (fun k t => w (3 * z k + 4 + 6 * z t, 3 * z k + 2)) (fun k t => w (3 * z k + 6 + 6 * z t, 3 * z k + 2)).

  Ltac out := apply hl_out; unfold hexd, hexpt; cbn [fst snd]; subst z; cbv beta; zmod.
  Ltac atw a b := replace (w a) with (w b) by (f_equal; f_equal; lia).
  Lemma hl_good : good m hl_tri.
  Proof. assert (ZS : forall n, z (S n) = z n + 1) by (intros; unfold z; lia).
    assert (ZP : forall n, 0 <= z n) by (intros; unfold z; lia).
    split; cbn [hl_tri fa fa' fb fb' fc fc'].
    1-6: intros k t H; out.
    - intros k t H. pose proof (hl_face (3 * z k + 6 * z t + 2) (3 * z k)) as F.
      assert (FA : hexa (3 * z m + 1) (3 * z k + 6 * z t + 2, 3 * z k)) by (unfold hexa, hexpt; cbn [fst snd]; subst z; cbv beta; zmod).
      specialize (F FA). cbn [hex_nb map xorl fold_right] in F.
      replace (3 * z k + 6 * z t + 2 - 1) with (3 * z k + 1 + 6 * z t) in F by lia.
      replace (3 * z k + 6 * z t + 2 - 2) with (3 * z k + 6 * z t) in F by lia.
      replace (3 * z k + 6 * z t + 2 + 1) with (3 * z k + 3 + 6 * z t) in F by lia.
      replace (3 * z k + 6 * z t + 2 + 2) with (3 * z k + 6 * z t + 4) in F by lia.
      destruct k as [|l].
      + rewrite (hl_out (3 * z 0 + 1 + 6 * z t, 3 * z 0 - 1)) in F by (unfold hexd, hexpt; cbn [fst snd]; change (z 0) with 0; lia).
        rewrite (hl_out (3 * z 0 + 3 + 6 * z t, 3 * z 0 - 1)) in F by (unfold hexd, hexpt; cbn [fst snd]; change (z 0) with 0; lia).
        revert F. generalize (w (3 * z 0 + 1 + 6 * z t, 3 * z 0 + 1)) (w (3 * z 0 + 6 * z t, 3 * z 0)) (w (3 * z 0 + 6 * z t + 4, 3 * z 0)) (w (3 * z 0 + 3 + 6 * z t, 3 * z 0 + 1)).
        intros [] [] [] []; cbn; congruence.
      + replace (3 * z (S l) + 1 + 6 * z t, 3 * z (S l) - 1) with (3 * z l + 4 + 6 * z t, 3 * z l + 2) in F by (f_equal; rewrite ZS; lia).
        replace (3 * z (S l) + 3 + 6 * z t, 3 * z (S l) - 1) with (3 * z l + 6 + 6 * z t, 3 * z l + 2) in F by (f_equal; rewrite ZS; lia).
        revert F. generalize (w (3 * z (S l) + 1 + 6 * z t, 3 * z (S l) + 1)) (w (3 * z (S l) + 6 * z t, 3 * z (S l))) (w (3 * z (S l) + 6 * z t + 4, 3 * z (S l))) (w (3 * z (S l) + 3 + 6 * z t, 3 * z (S l) + 1))
          (w (3 * z l + 4 + 6 * z t, 3 * z l + 2)) (w (3 * z l + 6 + 6 * z t, 3 * z l + 2)).
        intros [] [] [] [] [] []; cbn; congruence.
    - intros k t H. pose proof (hl_face (3 * z k + 6 * z t + 5) (3 * z k + 1)) as F.
      assert (FA : hexa (3 * z m + 1) (3 * z k + 6 * z t + 5, 3 * z k + 1)) by (unfold hexa, hexpt; cbn [fst snd]; subst z; cbv beta; zmod).
      specialize (F FA). cbn [hex_nb map xorl fold_right] in F. rewrite ZS.
      replace (3 * z k + 6 * z t + 5 - 1, 3 * z k + 1 + 1) with (3 * z k + 4 + 6 * z t, 3 * z k + 2) in F by (f_equal; lia).
      replace (3 * z k + 6 * z t + 5 - 2, 3 * z k + 1) with (3 * z k + 3 + 6 * z t, 3 * z k + 1) in F by (f_equal; lia).
      replace (3 * z k + 6 * z t + 5 - 1, 3 * z k + 1 - 1) with (3 * z k + 6 * z t + 4, 3 * z k) in F by (f_equal; lia).
      replace (3 * z k + 6 * z t + 5 + 1, 3 * z k + 1 - 1) with (3 * z k + 6 * (z t + 1), 3 * z k) in F by (f_equal; lia).
      replace (3 * z k + 6 * z t + 5 + 2, 3 * z k + 1) with (3 * z k + 1 + 6 * (z t + 1), 3 * z k + 1) in F by (f_equal; lia).
      replace (3 * z k + 6 * z t + 5 + 1, 3 * z k + 1 + 1) with (3 * z k + 6 + 6 * z t, 3 * z k + 2) in F by (f_equal; lia).
      revert F. generalize (w (3 * z k + 4 + 6 * z t, 3 * z k + 2)) (w (3 * z k + 3 + 6 * z t, 3 * z k + 1)) (w (3 * z k + 6 * z t + 4, 3 * z k)) (w (3 * z k + 6 * (z t + 1), 3 * z k))
        (w (3 * z k + 1 + 6 * (z t + 1), 3 * z k + 1)) (w (3 * z k + 6 + 6 * z t, 3 * z k + 2)).
      intros [] [] [] [] [] []; cbn; congruence.
    - intros k t H. pose proof (hl_face (3 * z k + 6 * z t + 2) (3 * z k + 2)) as F.
      assert (FA : hexa (3 * z m + 1) (3 * z k + 6 * z t + 2, 3 * z k + 2)) by (unfold hexa, hexpt; cbn [fst snd]; subst z; cbv beta; zmod).
      specialize (F FA). cbn [hex_nb map xorl fold_right] in F. rewrite ZS.
      replace (3 * z k + 6 * z t + 2 + 1, 3 * z k + 2 + 1) with (3 * (z k + 1) + 6 * z t, 3 * (z k + 1)) in F by (f_equal; lia).
      replace (3 * z k + 6 * z t + 2 - 1, 3 * z k + 2 - 1) with (3 * z k + 1 + 6 * z t, 3 * z k + 1) in F by (f_equal; lia).
      replace (3 * z k + 6 * z t + 2 + 1, 3 * z k + 2 - 1) with (3 * z k + 3 + 6 * z t, 3 * z k + 1) in F by (f_equal; lia).
      replace (3 * z k + 6 * z t + 2 + 2, 3 * z k + 2) with (3 * z k + 4 + 6 * z t, 3 * z k + 2) in F by (f_equal; lia).
      destruct t as [|s].
      + rewrite (hl_out (3 * z k + 6 * z 0 + 2 - 1, 3 * z k + 2 + 1)) in F by (unfold hexd, hexpt; cbn [fst snd]; change (z 0) with 0; lia).
        rewrite (hl_out (3 * z k + 6 * z 0 + 2 - 2, 3 * z k + 2)) in F by (unfold hexd, hexpt; cbn [fst snd]; change (z 0) with 0; lia).
        cbn [pv]. revert F. generalize (w (3 * (z k + 1) + 6 * z 0, 3 * (z k + 1))) (w (3 * z k + 1 + 6 * z 0, 3 * z k + 1)) (w (3 * z k + 3 + 6 * z 0, 3 * z k + 1)) (w (3 * z k + 4 + 6 * z 0, 3 * z k + 2)).
        intros [] [] [] []; cbn; congruence.
      + replace (3 * z k + 6 * z (S s) + 2 - 1, 3 * z k + 2 + 1) with (3 * (z k + 1) + 6 * z s + 4, 3 * (z k + 1)) in F by (f_equal; rewrite ?ZS; lia).
        replace (3 * z k + 6 * z (S s) + 2 - 2, 3 * z k + 2) with (3 * z k + 6 + 6 * z s, 3 * z k + 2) in F by (f_equal; rewrite ?ZS; lia).
        cbn [pv]. revert F. generalize (w (3 * (z k + 1) + 6 * z (S s), 3 * (z k + 1))) (w (3 * z k + 1 + 6 * z (S s), 3 * z k + 1)) (w (3 * z k + 3 + 6 * z (S s), 3 * z k + 1)) (w (3 * z k + 4 + 6 * z (S s), 3 * z k + 2))
          (w (3 * (z k + 1) + 6 * z s + 4, 3 * (z k + 1))) (w (3 * z k + 6 + 6 * z s, 3 * z k + 2)).
        intros [] [] [] [] [] []; cbn; congruence. Qed.

  Lemma hl_rowpar : rowpar hl_tri (S m) = true.
  Proof. assert (DB : dot (bdry data) v = true).
    { apply (odd_meet (length data) (length anc) (map (frow data) (map hex_nb anc))); auto.
      - apply frows_wf.
      - now apply (hex_rows_indep d data anc E Hodd).
      - now rewrite !map_length.
      - pose proof (hex_n d data anc E Hodd Hpos). pose proof (hex_nanc d data anc E Hodd Hpos). cbv zeta in *. lia.
      - intros r s Hr Hs. apply in_map_iff in Hr, Hs. destruct Hr as (F & <- & HF). destruct Hs as (G & <- & HG). rewrite frow_dot; auto.
        + now apply (hex_faces_even d data anc E).
        + pose proof (hex_faces_nodup anc) as NF. rewrite Forall_forall in NF. auto.
      - now apply (bdry_kernel d data anc E).
      - now apply (bdry_not_stab d data anc E).
      - assert (G : forall b : vec, dot b b = Nat.odd (weight b)).
        { induction b as [|[] b IH]; [reflexivity| |]; cbn [dot weight filter andb]; rewrite IH; [|now destruct (Nat.odd _)].
          unfold weight. cbn [filter length count_occ]. change (Nat.odd (1 + weight b)) with (Nat.odd (S (weight b))). rewrite Nat.odd_succ, <- Nat.negb_odd. now destruct (Nat.odd _). }
        rewrite G, (bdry_weight d data anc E Hodd Hpos). rewrite <- (Z2Nat.id d) in Hodd by lia.
        destruct (Nat.odd (Z.to_nat d)) eqn:Ev; auto. rewrite <- Nat.negb_even in Ev. apply negb_false_iff, Nat.even_spec in Ev. destruct Ev as [k Ek]. rewrite Ek in Hodd. exfalso. zmod. }
    unfold bdry in DB. rewrite (vat_dot data v ND (proj1 Kv)) in DB.
    set (pts := fun t : nat => [(6 * z t, 0); (6 * z t - 2, 0)] : list coord).
    rewrite (vat_count data v ND (fun p => snd p =? 0) (flat_map pts (seq 0 (S m)))) in DB.
    - rewrite odd_filter, xorl_flat in DB. rewrite <- DB. unfold rowpar. fold w.
      assert (G : forall n, xsum n (fun t => xorb (fa hl_tri 0 t) (pv (fa' hl_tri 0) t)) = xsum n (fun k => xorl (map w (pts k)))).
      { induction n as [|n IH]; [reflexivity|]. cbn [xsum]. rewrite IH. f_equal. cbn [map pts xorl fold_right]. rewrite xorb_false_r. f_equal.
        destruct n as [|k]; cbn [pv].
          + symmetry. apply hl_out. unfold hexd, hexpt. cbn [fst snd]. unfold z. lia.
          + cbn [hl_tri fa']. apply (f_equal w); apply f_equal2; unfold z; lia. }
      apply G.
    - apply NoDup_flat_map; [apply seq_NoDup| |].
      + intros t _. constructor; [|constructor; [easy|constructor]]. intros [H|[]]. injection H. lia.
      + intros a b p _ _ Ha Hb. unfold pts in Ha, Hb; cbn [In] in Ha, Hb. destruct Ha as [<-|[<-|[]]], Hb as [H|[H|[]]]; assert (Q := f_equal fst H); cbn [fst] in Q; unfold z in Q; lia.
    - intros [x y] Hp Hy. cbn [snd] in Hy. apply Z.eqb_eq in Hy. subst y. rewrite (hex_data_iff d data anc E), hl_M in Hp. destruct Hp as [(A1 & A2 & A3 & A4) A5]. cbn [fst snd] in *.
      apply in_flat_map. assert (C : x mod 6 = 0 \/ x mod 6 = 4) by zmod. destruct C as [C|C].
      + exists (Z.to_nat (x / 6)). split; [apply in_seq; unfold z in *; zmod|left]. unfold pts. f_equal. unfold z. zmod.
      + exists (S (Z.to_nat (x / 6))). split; [apply in_seq; unfold z in *; zmod|right; left]. unfold pts. f_equal. unfold z. zmod.
    - intros p Hp _. apply in_flat_map in Hp. destruct Hp as (t & _ & [<-|[<-|[]]]); reflexivity. Qed.

  Lemma hl_weight : (wtri hl_tri m <= weight v)%nat.
  Proof. set (pts := fun k t : nat => [(3 * z k + 6 * z t, 3 * z k); (3 * z k + 6 * z t + 4, 3 * z k); (3 * z k + 1 + 6 * z t, 3 * z k + 1); (3 * z k + 3 + 6 * z t, 3 * z k + 1);
       (3 * z k + 4 + 6 * z t, 3 * z k + 2); (3 * z k + 6 + 6 * z t, 3 * z k + 2)] : list coord).
    assert (EQ : wtri hl_tri m = length (filter w (flat_map (fun k => flat_map (pts k) (seq 0 (S (m - k)))) (seq 0 (S m))))).
    { rewrite filter_flat_len. unfold wtri. apply nsum_ext. intros k _. rewrite filter_flat_len. unfold wlevel. apply nsum_ext. intros t _.
      unfold pts. rewrite !len_filter_cons, len_filter_nil. unfold wblock, bn, Nat.b2n. cbn [hl_tri fa fa' fb fb' fc fc']. lia. }
    rewrite EQ. apply (vat_weight data v ND (proj1 Kv)).
    assert (IN : forall k t p, In p (pts k t) -> 3 * z k <= snd p <= 3 * z k + 2 /\ 6 * z t <= fst p - snd p <= 6 * z t + 4).
    { intros k t p H. unfold pts in H; cbn [In] in H. repeat (destruct H as [<-|H]; [cbn [fst snd]; lia|]). contradiction H. }
    apply NoDup_flat_map; [apply seq_NoDup| |].
    - intros k _. apply NoDup_flat_map; [apply seq_NoDup| |].
      + intros t _. unfold pts. repeat (apply NoDup_cons; [intros H; cbn [In] in H; repeat (destruct H as [H|H]; [assert (Q := f_equal fst H); assert (Q2 := f_equal snd H); cbn [fst snd] in Q, Q2; lia|]); contradiction H|]). constructor.
      + intros a b p _ _ Ha Hb. apply IN in Ha, Hb. unfold z in *. lia.
    - intros a b p _ _ Ha Hb. apply in_flat_map in Ha, Hb. destruct Ha as (t & _ & Ha). destruct Hb as (u & _ & Hb). apply IN in Ha, Hb. unfold z in *. lia. Qed.

  Theorem hex_distance : d <= Z.of_nat (weight v).
  Proof. pose proof (tri_distance m hl_tri hl_good hl_rowpar). pose proof hl_weight. assert (d = 2 * Z.of_nat m + 1) by (subst m; zmod). lia. Qed.
End HexLower.
