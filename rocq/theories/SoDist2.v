(** * SoDist2: the distance of the square-octagon color code of every odd distance (see SoDist for the argument). *)
From Verif Require Export ColorDist SoDist SoCode.
Local Open Scope Z_scope.

Section SoLower.
  Variables (d : Z) (data sq oc : list coord) (v : vec).
  Hypothesis E : so_enum d data sq oc.
  Hypothesis Hodd : d mod 2 = 1.
  Hypothesis Hd : 3 <= d.
  Let fs := sofaces sq oc.
  Hypothesis Kv : in_kernel (length data) (map (frow data) (map sonb fs)) v.
  Hypothesis Nv : ~ span (length data) (map (frow data) (map sonb fs)) v.
  Let m := Z.to_nat ((d - 1) / 2).
  Let z := Z.of_nat.
  Let w := vat data v.
  Let ND : NoDup data := so_data_nodup d data sq oc E Hodd Hd.
  Lemma sl_out p : ~ sod (z m) p -> w p = false.
  Proof. intros H. apply vat_out; auto. now rewrite (so_data_iff d data sq oc E Hodd Hd). Qed.
  Lemma sl_face f : soa (z m) f -> xorl (map w (sonb f)) = false.
  Proof. intros H. unfold w. rewrite <- odd_filter, <- (vat_face data v ND (proj1 Kv)) by apply sonb_NoDup. apply Kv.
    apply in_map, in_map. unfold fs, sofaces. apply in_app_iff. destruct f as [[|] c]; [left|right]; apply in_map; unfold soa in H; cbn [fst snd] in H.
    - now apply (so_sq_iff d data sq oc E Hodd Hd).
    - now apply (so_oct_iff d data sq oc E Hodd Hd). Qed.

  Definition sl_quad : quad := mkQ
    (fun k t => w (3 * z k + 6 * z t, 3 * z k + 1)) (fun k t => w (3 * z k + 2 + 6 * z t, 3 * z k + 1))
    (fun k t => w (3 * z k + 3 + 6 * z t, 3 * z k + 2)) (fun k t => w (3 * z k + 5 + 6 * z t, 3 * z k + 2)).
  Lemma z_S n : z (S n) = z n + 1. Proof. unfold z. lia. Qed.
  Lemma z_pos n : 0 <= z n. Proof. unfold z. lia. Qed.
  Lemma sl_pv a b s : w (a - 6, b) = false -> pv (fun t => w (a + 6 * z t, b)) s = w (a + 6 * z s - 6, b).
  Proof. intros H. destruct s as [|s]; cbn [pv].
    - replace (a + 6 * z 0 - 6) with (a - 6) by (change (z 0) with 0; lia). now rewrite H.
    - apply (f_equal w). apply f_equal2; [rewrite z_S; lia|reflexivity]. Qed.
  Ltac out := apply sl_out; unfold sod; subst z; cbv beta; zmod.
  Lemma sl_oct k s : soo (z m) (3 * z k - 2 + 6 * z s, 3 * z k) -> SoDist.oct sl_quad k s = false.
  Proof. intros F. pose proof (sl_face (false, (3 * z k - 2 + 6 * z s, 3 * z k)) F) as Q. cbn [sonb fst snd oct_nb map xorl fold_right] in Q.
    pose proof (z_pos k) as Pk. pose proof (z_pos s) as Ps.
    unfold SoDist.oct. cbn [sl_quad qu qu' qw qw'].
    rewrite (sl_pv (3 * z k + 2) (3 * z k + 1) s) by out. rewrite (sl_pv (3 * z k + 3) (3 * z k + 2) s) by out. rewrite (sl_pv (3 * z k + 5) (3 * z k + 2) s) by out.
    replace (3 * z k - 2 + 6 * z s - 2, 3 * z k + 1) with (3 * z k + 2 + 6 * z s - 6, 3 * z k + 1) in Q by (apply f_equal2; lia).
    replace (3 * z k - 2 + 6 * z s + 2, 3 * z k + 1) with (3 * z k + 6 * z s, 3 * z k + 1) in Q by (apply f_equal2; lia).
    replace (3 * z k - 2 + 6 * z s - 1, 3 * z k + 2) with (3 * z k + 3 + 6 * z s - 6, 3 * z k + 2) in Q by (apply f_equal2; lia).
    replace (3 * z k - 2 + 6 * z s + 1, 3 * z k + 2) with (3 * z k + 5 + 6 * z s - 6, 3 * z k + 2) in Q by (apply f_equal2; lia).
    destruct k as [|l].
    - rewrite (sl_out (3 * z 0 - 2 + 6 * z s - 2, 3 * z 0 - 1)) in Q by (unfold sod; change (z 0) with 0; zmod).
      rewrite (sl_out (3 * z 0 - 2 + 6 * z s - 1, 3 * z 0 - 2)) in Q by (unfold sod; change (z 0) with 0; zmod).
      rewrite (sl_out (3 * z 0 - 2 + 6 * z s + 1, 3 * z 0 - 2)) in Q by (unfold sod; change (z 0) with 0; zmod).
      rewrite (sl_out (3 * z 0 - 2 + 6 * z s + 2, 3 * z 0 - 1)) in Q by (unfold sod; change (z 0) with 0; zmod).
      revert Q. generalize (w (3 * z 0 + 2 + 6 * z s - 6, 3 * z 0 + 1)) (w (3 * z 0 + 6 * z s, 3 * z 0 + 1)) (w (3 * z 0 + 3 + 6 * z s - 6, 3 * z 0 + 2)) (w (3 * z 0 + 5 + 6 * z s - 6, 3 * z 0 + 2)).
      intros [] [] [] []; cbn; congruence.
    - pose proof (z_S l) as ZS. pose proof (z_pos l) as Pl.
      rewrite (sl_pv (3 * z l + 5) (3 * z l + 2) s) by out.
      replace (3 * z (S l) - 2 + 6 * z s - 2, 3 * z (S l) - 1) with (3 * z l + 5 + 6 * z s - 6, 3 * z l + 2) in Q by (apply f_equal2; lia).
      replace (3 * z (S l) - 2 + 6 * z s - 1, 3 * z (S l) - 2) with (3 * z l + 6 * z s, 3 * z l + 1) in Q by (apply f_equal2; lia).
      replace (3 * z (S l) - 2 + 6 * z s + 1, 3 * z (S l) - 2) with (3 * z l + 2 + 6 * z s, 3 * z l + 1) in Q by (apply f_equal2; lia).
      replace (3 * z (S l) - 2 + 6 * z s + 2, 3 * z (S l) - 1) with (3 * z l + 3 + 6 * z s, 3 * z l + 2) in Q by (apply f_equal2; lia).
      revert Q. generalize (w (3 * z (S l) + 2 + 6 * z s - 6, 3 * z (S l) + 1)) (w (3 * z (S l) + 6 * z s, 3 * z (S l) + 1)) (w (3 * z (S l) + 3 + 6 * z s - 6, 3 * z (S l) + 2)) (w (3 * z (S l) + 5 + 6 * z s - 6, 3 * z (S l) + 2))
        (w (3 * z l + 5 + 6 * z s - 6, 3 * z l + 2)) (w (3 * z l + 6 * z s, 3 * z l + 1)) (w (3 * z l + 2 + 6 * z s, 3 * z l + 1)) (w (3 * z l + 3 + 6 * z s, 3 * z l + 2)).
      intros [] [] [] [] [] [] [] []; cbn; congruence. Qed.
  Lemma odd_mod k b : Nat.odd k = b -> z k mod 2 = if b then 1 else 0.
  Proof. intros <-. unfold z. destruct (Nat.odd k) eqn:O.
    - apply Nat.odd_spec in O. destruct O as [j ->]. zmod.
    - rewrite <- Nat.negb_even in O. apply negb_false_iff, Nat.even_spec in O. destruct O as [j ->]. zmod. Qed.
  Lemma sl_good : goodL m sl_quad.
  Proof. split; cbn [sl_quad qu qu' qw qw'].
    1-2: intros k t H; out.
    1: out.
    1-2: intros k t H; out.
    - intros k t H. pose proof (sl_face (true, (3 * z k + 4 + 6 * z t, 3 * z k + 3))) as Q. 
      assert (FA : soa (z m) (true, (3 * z k + 4 + 6 * z t, 3 * z k + 3))) by (unfold soa, soq; cbn [fst snd]; subst z; cbv beta; zmod).
      specialize (Q FA). cbn [sonb fst snd sq_nb map xorl fold_right] in Q. unfold sqr. cbn [sl_quad qu qu' qw qw']. pose proof (z_S k) as ZS.
      replace (3 * z k + 4 + 6 * z t - 1, 3 * z k + 3 - 1) with (3 * z k + 3 + 6 * z t, 3 * z k + 2) in Q by (apply f_equal2; lia).
      replace (3 * z k + 4 + 6 * z t + 1, 3 * z k + 3 - 1) with (3 * z k + 5 + 6 * z t, 3 * z k + 2) in Q by (apply f_equal2; lia).
      replace (3 * z k + 4 + 6 * z t - 1, 3 * z k + 3 + 1) with (3 * z (S k) + 6 * z t, 3 * z (S k) + 1) in Q by (apply f_equal2; lia).
      replace (3 * z k + 4 + 6 * z t + 1, 3 * z k + 3 + 1) with (3 * z (S k) + 2 + 6 * z t, 3 * z (S k) + 1) in Q by (apply f_equal2; lia).
      revert Q. generalize (w (3 * z k + 3 + 6 * z t, 3 * z k + 2)) (w (3 * z k + 5 + 6 * z t, 3 * z k + 2)) (w (3 * z (S k) + 6 * z t, 3 * z (S k) + 1)) (w (3 * z (S k) + 2 + 6 * z t, 3 * z (S k) + 1)).
      intros [] [] [] []; cbn; congruence.
    - intros s H. apply sl_oct. left. change (z 0) with 0. subst z; cbv beta. zmod.
    - intros k s O H. apply odd_mod in O. apply sl_oct. right. left. subst z; cbv beta in *. zmod.
    - intros k s O H1 H2 H3. apply odd_mod in O. apply sl_oct. right. right. subst z; cbv beta in *. zmod. Qed.

  Lemma sl_row : qrow sl_quad m = true.
  Proof. assert (DB : dot (so_bd data) v = true).
    { apply (odd_meet (length data) (length fs) (map (frow data) (map sonb fs))); auto.
      - apply frows_wf.
      - apply (so_rows_indep d data sq oc E Hodd Hd).
      - now rewrite !map_length.
      - pose proof (so_n d data sq oc E Hodd Hd). pose proof (so_nsq d data sq oc E Hodd Hd). pose proof (so_noct d data sq oc E Hodd Hd). unfold fs. rewrite sofaces_len. cbv zeta in *. lia.
      - intros r s Hr Hs. apply in_map_iff in Hr, Hs. destruct Hr as (F & <- & HF). destruct Hs as (G & <- & HG). rewrite frow_dot; auto.
        + now apply (so_faces_even d data sq oc E Hodd Hd).
        + pose proof (so_faces_nodup sq oc) as NF. rewrite Forall_forall in NF. auto.
      - apply (so_bd_kernel d data sq oc E Hodd Hd).
      - apply (so_bd_not_stab d data sq oc E Hodd Hd).
      - assert (G : forall b : vec, dot b b = Nat.odd (weight b)).
        { induction b as [|[] b IH]; [reflexivity| |]; cbn [dot weight filter andb]; rewrite IH; [|now destruct (Nat.odd _)].
          unfold weight. cbn [filter length count_occ]. change (Nat.odd (1 + weight b)) with (Nat.odd (S (weight b))). rewrite Nat.odd_succ, <- Nat.negb_odd. now destruct (Nat.odd _). }
        rewrite G, (so_bd_weight d data sq oc E Hodd Hd). destruct (so_d_m d Hodd Hd) as [Ed _]. rewrite Ed.
        replace (Z.to_nat (2 * Z.of_nat (Z.to_nat ((d - 1) / 2)) + 1)) with (S (2 * Z.to_nat ((d - 1) / 2)))%nat by lia. now rewrite Nat.odd_succ, Nat.even_mul. }
    unfold so_bd in DB. rewrite (vat_dot data v ND (proj1 Kv)) in DB.
    set (pts := fun t : nat => [(6 * z t, 1); (2 + 6 * z t, 1)] : list coord).
    rewrite (vat_count data v ND (fun p => snd p =? 1) (flat_map pts (seq 0 (S m)))) in DB.
    - rewrite odd_filter, xorl_flat in DB. rewrite <- DB. unfold qrow. apply xsum_ext. intros t _. cbn [sl_quad qu qu' map pts xorl fold_right].
      rewrite xorb_false_r. reflexivity.
    - apply NoDup_flat_map; [apply seq_NoDup| |].
      + intros t _. constructor; [|constructor; [easy|constructor]]. intros [H|[]]. assert (Q := f_equal fst H). cbn [fst] in Q. lia.
      + intros a b p _ _ Ha Hb. unfold pts in Ha, Hb. cbn [In] in Ha, Hb. destruct Ha as [<-|[<-|[]]], Hb as [H|[H|[]]]; assert (Q := f_equal fst H); cbn [fst] in Q; unfold z in Q; lia.
    - intros [x y] Hp Hy. cbn [snd] in Hy. apply Z.eqb_eq in Hy. subst y. apply (so_data_iff d data sq oc E Hodd Hd) in Hp. unfold sod in Hp.
      apply in_flat_map. exists (Z.to_nat (x / 6)). fold m z in Hp.
      assert (C : (x mod 6 = 0 \/ x mod 6 = 2) /\ 0 <= x <= 6 * z m) by (destruct Hp as [Hp|Hp]; zmod). destruct C as [C1 C2].
      split; [apply in_seq; unfold z in *; zmod|]. unfold pts. destruct C1 as [C|C]; [left|right; left]; apply f_equal2; auto; unfold z; zmod.
    - intros p Hp _. apply in_flat_map in Hp. destruct Hp as (t & _ & [<-|[<-|[]]]); reflexivity. Qed.

  Lemma sl_weight : (wquad sl_quad m <= weight v)%nat.
  Proof. set (pu := fun k t : nat => [(3 * z k + 6 * z t, 3 * z k + 1); (3 * z k + 2 + 6 * z t, 3 * z k + 1)] : list coord).
    set (pw := fun k t : nat => [(3 * z k + 3 + 6 * z t, 3 * z k + 2); (3 * z k + 5 + 6 * z t, 3 * z k + 2)] : list coord).
    assert (EQ : wquad sl_quad m = length (filter w (flat_map (fun k => flat_map (pu k) (seq 0 (S (m - k))) ++ flat_map (pw k) (seq 0 (m - k))) (seq 0 (S m))))).
    { rewrite filter_flat_len. unfold wquad. apply nsum_ext. intros k _. rewrite filter_app, app_length, !filter_flat_len. unfold lvl. f_equal; apply nsum_ext; intros t _;
      unfold pu, pw; rewrite !len_filter_cons, len_filter_nil; unfold bn, Nat.b2n; cbn [sl_quad qu qu' qw qw']; lia. }
    rewrite EQ. apply (vat_weight data v ND (proj1 Kv)).
    assert (INu : forall k t p, In p (pu k t) -> snd p = 3 * z k + 1 /\ 6 * z t <= fst p - snd p + 1 <= 6 * z t + 2).
    { intros k t p H. unfold pu in H. cbn [In] in H. repeat (destruct H as [<-|H]; [cbn [fst snd]; lia|]). contradiction H. }
    assert (INw : forall k t p, In p (pw k t) -> snd p = 3 * z k + 2 /\ 6 * z t <= fst p - snd p - 1 <= 6 * z t + 2).
    { intros k t p H. unfold pw in H. cbn [In] in H. repeat (destruct H as [<-|H]; [cbn [fst snd]; lia|]). contradiction H. }
    apply NoDup_flat_map; [apply seq_NoDup| |].
    - intros k _. apply NoDup_app_i.
      + apply NoDup_flat_map; [apply seq_NoDup| |].
        * intros t _. unfold pu. repeat (apply NoDup_cons; [intros H; cbn [In] in H; repeat (destruct H as [H|H]; [assert (Q := f_equal fst H); cbn [fst snd] in Q; lia|]); contradiction H|]). constructor.
        * intros a b p _ _ Ha Hb. apply INu in Ha, Hb. unfold z in *. lia.
      + apply NoDup_flat_map; [apply seq_NoDup| |].
        * intros t _. unfold pw. repeat (apply NoDup_cons; [intros H; cbn [In] in H; repeat (destruct H as [H|H]; [assert (Q := f_equal fst H); cbn [fst snd] in Q; lia|]); contradiction H|]). constructor.
        * intros a b p _ _ Ha Hb. apply INw in Ha, Hb. unfold z in *. lia.
      + intros p Ha Hb. apply in_flat_map in Ha, Hb. destruct Ha as (t & _ & Ha). destruct Hb as (u & _ & Hb). apply INu in Ha. apply INw in Hb. lia.
    - assert (LV : forall k p, In p (flat_map (pu k) (seq 0 (S (m - k))) ++ flat_map (pw k) (seq 0 (m - k))) -> snd p = 3 * z k + 1 \/ snd p = 3 * z k + 2).
      { intros k p H. apply in_app_iff in H. destruct H as [H|H]; apply in_flat_map in H; destruct H as (t & _ & H); [left; now apply INu in H|right; now apply INw in H]. }
      intros a b p _ _ Ha Hb. apply LV in Ha, Hb. unfold z in *. lia. Qed.

  Theorem so_distance : d <= Z.of_nat (weight v).
  Proof. pose proof (quad_distance m sl_quad sl_good sl_row). pose proof sl_weight. assert (d = 2 * Z.of_nat m + 1) by (apply (so_d_m d Hodd Hd)). lia. Qed.
End SoLower.
