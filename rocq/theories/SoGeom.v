(** * SoGeom: overlaps, sizes and pivots of the faces of the square-octagon color codes. *)
From Verif Require Export SoProofs.
Local Open Scope Z_scope.

(** a face: squares (true) and octagons (false) *)
Definition sonb (f : bool * coord) : list coord := if fst f then sq_nb (snd f) else oct_nb (snd f).
Definition soa (m : Z) (f : bool * coord) : Prop := if fst f then soq m (snd f) else soo m (snd f).

Lemma sq_nb_NoDup c : NoDup (sq_nb c).
Proof. destruct c as [x y]. cbn. repeat constructor; cbn; intros H; repeat (destruct H as [H|H]; [injection H; intros; lia|]); exact H. Qed.
Lemma oct_nb_NoDup c : NoDup (oct_nb c).
Proof. destruct c as [x y]. cbn. repeat constructor; cbn; intros H; repeat (destruct H as [H|H]; [injection H; intros; lia|]); exact H. Qed.
Lemma sonb_NoDup f : NoDup (sonb f).
Proof. destruct f as [[|] c]; [apply sq_nb_NoDup|apply oct_nb_NoDup]. Qed.

(** the lattice *)
Lemma soq_lat m x y : soq m (x, y) -> exists a b, y = 3 * b /\ x = y + 1 + 6 * a.
Proof. unfold soq. intros H. exists ((x - y - 1) / 6), (y / 3). zmod. Qed.
Lemma soo_lat m x y : soo m (x, y) -> exists a b, y = 3 * b /\ x = y + 4 + 6 * a.
Proof. unfold soo. intros H. exists ((x - y - 4) / 6), (y / 3). destruct H as [H|[H|H]]; zmod. Qed.

Ltac neqs H1 H2 tac := cbn [sq_nb oct_nb In] in H1, H2;
    repeat (destruct H1 as [H1|H1]; [repeat (destruct H2 as [H2|H2]; [rewrite <- H1 in H2; injection H2; clear H1 H2; intros; tac|]); elim H2|]); elim H1.

Lemma near_sq_sq m x y x' y' p : soq m (x, y) -> soq m (x', y') -> In p (sq_nb (x, y)) -> In p (sq_nb (x', y')) -> x' = x /\ y' = y.
Proof. intros A B H1 H2. apply soq_lat in A, B. destruct A as (a & b & A1 & A2). destruct B as (a' & b' & B1 & B2).
  neqs H1 H2 ltac:(lia). Qed.
Lemma near_sq_oct m x y x' y' p : soq m (x, y) -> soo m (x', y') -> In p (sq_nb (x, y)) -> In p (oct_nb (x', y')) ->
  (x' = x + 3 /\ y' = y) \/ (x' = x - 3 /\ y' = y) \/ (x' = x /\ y' = y + 3) \/ (x' = x /\ y' = y - 3).
Proof. intros A B H1 H2. apply soq_lat in A. apply soo_lat in B. destruct A as (a & b & A1 & A2). destruct B as (a' & b' & B1 & B2).
  neqs H1 H2 ltac:(lia). Qed.
Lemma near_oct_oct m x y x' y' p : soo m (x, y) -> soo m (x', y') -> In p (oct_nb (x, y)) -> In p (oct_nb (x', y')) ->
  (x' = x /\ y' = y) \/ (x' = x + 3 /\ y' = y + 3) \/ (x' = x + 3 /\ y' = y - 3) \/ (x' = x - 3 /\ y' = y + 3) \/ (x' = x - 3 /\ y' = y - 3).
Proof. intros A B H1 H2. apply soo_lat in A, B. destruct A as (a & b & A1 & A2). destruct B as (a' & b' & B1 & B2).
  neqs H1 H2 ltac:(lia). Qed.

Lemma ovl_none hb F G : (forall p, In p F -> In p G -> False) -> length (ovl hb F G) = 0%nat.
Proof. intros H. unfold ovl. rewrite filter_none; [reflexivity|]. intros p Hp. destruct (cmem p G) eqn:E; [|now rewrite andb_false_r].
  exfalso. apply cmem_In in E. eauto. Qed.
Lemma share_dec (F G : list coord) : (exists p, In p F /\ In p G) \/ (forall p, In p F -> In p G -> False).
Proof. destruct (existsb (fun p => cmem p G) F) eqn:EX.
  - left. apply existsb_exists in EX. destruct EX as (p & P1 & P2). exists p. split; auto. now apply cmem_In.
  - right. intros p P1 P2. assert (existsb (fun p => cmem p G) F = true) by (apply existsb_exists; exists p; split; auto; now apply cmem_In). congruence. Qed.

Section SoGeom.
  Variable m : Z.
  Hypothesis Hm : 1 <= m.
  Variable hb : coord -> bool.
  Hypothesis Hb : forall p, hb p = true <-> sod m p.

  Lemma so_hb_true p : sod m p -> hb p = true.
  Proof. apply Hb. Qed.
  Lemma so_hb_false p : ~ sod m p -> hb p = false.
  Proof. intros H. destruct (hb p) eqn:E; auto. elim H. now apply Hb. Qed.

  Ltac sodt := unfold sod; first [ left; zmod | right; zmod ].
  Ltac sodf := unfold sod; let A := fresh in intros [A|A]; zmod.
  Ltac hbs := repeat match goal with |- context [hb ?p] =>
    first [ rewrite (so_hb_true p) by sodt | rewrite (so_hb_false p) by sodf ] end.

  Lemma so_sq_oct x y x' y' : soq m (x, y) -> soo m (x', y') ->
    (length (ovl hb (sq_nb (x, y)) (oct_nb (x', y'))) = 0%nat \/ length (ovl hb (sq_nb (x, y)) (oct_nb (x', y'))) = 2%nat).
  Proof. intros A B. destruct (share_dec (sq_nb (x, y)) (oct_nb (x', y'))) as [(p & P1 & P2)|N]; [|left; now apply ovl_none].
    pose proof (near_sq_oct m x y x' y' p A B P1 P2) as D. clear p P1 P2. unfold soq in A. unfold soo in B.
    destruct D as [[-> ->]|[[-> ->]|[[-> ->]|[-> ->]]]]; right; ovl_eval; rewrite ?andb_true_r; destruct B as [B|[B|B]]; try (exfalso; zmod); hbs; reflexivity. Qed.
  Lemma so_oct_sq x y x' y' : soq m (x', y') -> soo m (x, y) ->
    (length (ovl hb (oct_nb (x, y)) (sq_nb (x', y'))) = 0%nat \/ length (ovl hb (oct_nb (x, y)) (sq_nb (x', y'))) = 2%nat).
  Proof. intros A B. destruct (share_dec (sq_nb (x', y')) (oct_nb (x, y))) as [(p & P1 & P2)|N]; [|left; apply ovl_none; intros; eapply N; eauto].
    pose proof (near_sq_oct m x' y' x y p A B P1 P2) as D. clear p P1 P2. unfold soq in A. unfold soo in B.
    destruct D as [[-> ->]|[[-> ->]|[[-> ->]|[-> ->]]]]; right; ovl_eval; rewrite ?andb_true_r; destruct B as [B|[B|B]]; try (exfalso; zmod); hbs; reflexivity. Qed.
  Lemma so_oct_oct x y x' y' : soo m (x, y) -> soo m (x', y') -> (x, y) <> (x', y') ->
    (length (ovl hb (oct_nb (x, y)) (oct_nb (x', y'))) = 0%nat \/ length (ovl hb (oct_nb (x, y)) (oct_nb (x', y'))) = 2%nat).
  Proof. intros A B Hne. destruct (share_dec (oct_nb (x, y)) (oct_nb (x', y'))) as [(p & P1 & P2)|N]; [|left; now apply ovl_none].
    pose proof (near_oct_oct m x y x' y' p A B P1 P2) as D. clear p P1 P2. unfold soo in A, B.
    destruct D as [[-> ->]|[[-> ->]|[[-> ->]|[[-> ->]|[-> ->]]]]]; [now elim Hne| | | |]; right; ovl_eval; rewrite ?andb_true_r; destruct A as [A|[A|A]]; destruct B as [B|[B|B]]; try (exfalso; zmod); hbs; reflexivity. Qed.
  Lemma so_two f g : soa m f -> soa m g -> f <> g -> length (ovl hb (sonb f) (sonb g)) = 0%nat \/ length (ovl hb (sonb f) (sonb g)) = 2%nat.
  Proof. destruct f as [[|] [x y]], g as [[|] [x' y']]; unfold soa, sonb; cbn [fst snd]; intros A B Hne.
    - left. apply ovl_none. intros p P1 P2. destruct (near_sq_sq m x y x' y' p A B P1 P2) as [-> ->]. now elim Hne.
    - now apply so_sq_oct.
    - now apply so_oct_sq.
    - apply so_oct_oct; auto. congruence. Qed.

  Lemma so_size f : soa m f -> length (filter hb (sonb f)) = 4%nat \/ (fst f = false /\ length (filter hb (sonb f)) = 8%nat).
  Proof. destruct f as [[|] [x y]]; unfold soa, sonb; cbn [fst snd sq_nb oct_nb]; intros A; rewrite !len_filter_cons, len_filter_nil.
    - left. unfold soq in A. hbs. reflexivity.
    - unfold soo in A. destruct A as [A|[A|A]].
      + left. hbs. reflexivity.
      + destruct (Z.eq_dec x (y - 2)); [left; hbs; reflexivity|right; split; auto; hbs; reflexivity].
      + destruct (Z.eq_dec x (6 * m - y + 4)); [left; hbs; reflexivity|right; split; auto; hbs; reflexivity]. Qed.

  (** pivots *)
  Definition so_piv (f : bool * coord) : coord :=
    let '(k, (x, y)) := f in
    if k then (if y mod 2 =? 0 then (x - 1, y + 1) else (x + 1, y + 1))
    else if y mod 2 =? 0 then (if (x =? 6 * m - y + 4) && (0 <? y) then (x - 2, y + 1) else (x + 1, y + 2))
    else (if x =? y - 2 then (x + 2, y + 1) else (x - 1, y + 2)).
  Definition so_mu (f : bool * coord) : Z := let '(k, (x, y)) := f in (12 * m + 100) * y + (if y mod 2 =? 0 then - x else x).
  Lemma so_piv_in f : In (so_piv f) (sonb f).
  Proof. destruct f as [[|] [x y]]; unfold so_piv, sonb; cbn [fst snd sq_nb oct_nb In]; destruct (y mod 2 =? 0); [| |destruct ((x =? 6 * m - y + 4) && (0 <? y))|destruct (x =? y - 2)]; tauto. Qed.
  Lemma so_piv_data f : soa m f -> sod m (so_piv f).
  Proof. destruct f as [[|] [x y]]; unfold so_piv, soa; cbn [fst snd]; intros A.
    - unfold soq in A. destruct (Z.eqb_spec (y mod 2) 0); sodt.
    - unfold soo in A. destruct (Z.eqb_spec (y mod 2) 0).
      + destruct (Z.eqb_spec x (6 * m - y + 4)), (Z.ltb_spec 0 y); cbn [andb]; destruct A as [A|[A|A]]; try (exfalso; zmod); sodt.
      + destruct (Z.eqb_spec x (y - 2)); destruct A as [A|[A|A]]; try (exfalso; zmod); sodt. Qed.

  Lemma so_bdry f : soa m f -> Nat.odd (length (filter (fun p => hb p && (snd p =? 1)) (sonb f))) = false.
  Proof. destruct f as [[|] [x y]]; unfold soa, sonb; cbn [fst snd sq_nb oct_nb]; intros A; rewrite !len_filter_cons, len_filter_nil; cbn [snd].
    - unfold soq in A. replace (y + 1 =? 1) with false by (symmetry; apply Z.eqb_neq; lia). replace (y - 1 =? 1) with false by (symmetry; apply Z.eqb_neq; zmod). rewrite ?andb_false_r. reflexivity.
    - unfold soo in A. destruct A as [A|A].
      + destruct A as (-> & A). cbn [Z.add Z.sub Z.opp Z.pos_sub Z.eqb Pos.eqb]. rewrite ?andb_false_r, ?andb_true_r. hbs. reflexivity.
      + replace (y + 1 =? 1) with false by (symmetry; apply Z.eqb_neq; lia). replace (y + 2 =? 1) with false by (symmetry; apply Z.eqb_neq; lia).
        replace (y - 1 =? 1) with false by (symmetry; apply Z.eqb_neq; zmod). destruct (Z.eqb_spec (y - 2) 1) as [E|E]; rewrite ?andb_false_r, ?andb_true_r; [|reflexivity]. assert (y = 3) by lia. subst y. destruct A as [A|A]; [|exfalso; zmod]. hbs. reflexivity. Qed.

  Lemma so_range f : soa m f -> let '(k, (x, y)) := f in 0 <= y /\ 0 <= x <= 6 * m + 4 /\ y mod 3 = 0.
  Proof. destruct f as [[|] [x y]]; unfold soa; cbn [fst snd]; unfold soq, soo; intros A; [zmod|]. destruct A as [A|[A|A]]; zmod. Qed.
  Lemma mu_up k x y k' x' y' : 0 <= x <= 6 * m + 4 -> 0 <= x' <= 6 * m + 4 -> (y' = y + 3 \/ (y' = y /\ (y mod 2 = 0 -> x' < x) /\ (y mod 2 <> 0 -> x < x'))) -> so_mu (k, (x, y)) < so_mu (k', (x', y')).
  Proof. intros R R' D. unfold so_mu. destruct D as [->|(-> & D1 & D2)].
    - replace ((12 * m + 100) * (y + 3)) with ((12 * m + 100) * y + 36 * m + 300) by ring. generalize ((12 * m + 100) * y). intros.
      destruct (y mod 2 =? 0), ((y + 3) mod 2 =? 0); lia.
    - destruct (Z.eqb_spec (y mod 2) 0) as [E|E]; [specialize (D1 E)|specialize (D2 E)]; lia. Qed.

  Lemma so_piv_up f g : soa m f -> soa m g -> f <> g -> In (so_piv f) (sonb g) -> so_mu f < so_mu g.
  Proof. intros A B Hne Hin. pose proof (so_range f A) as RA. pose proof (so_range g B) as RB.
    destruct f as [k [x y]], g as [k' [x' y']]. destruct RA as (RA1 & RA2 & RA3). destruct RB as (RB1 & RB2 & RB3).
    apply mu_up; auto.
    assert (LB : exists a b, y' = 3 * b /\ x' = y' + (if k' then 1 else 4) + 6 * a) by (destruct k'; [apply (soq_lat m)|apply (soo_lat m)]; exact B).
    assert (LA : exists a b, y = 3 * b /\ x = y + (if k then 1 else 4) + 6 * a) by (destruct k; [apply (soq_lat m)|apply (soo_lat m)]; exact A).
    destruct LA as (a & b & LA1 & LA2). destruct LB as (a' & b' & LB1 & LB2). clear RA3 RB3.
    assert (Hne' : ~ (k = k' /\ x = x' /\ y = y')) by (intros (-> & -> & ->); now apply Hne).
    destruct k.
    - unfold so_piv in Hin. destruct (Z.eqb_spec (y mod 2) 0) as [Ey|Ey]; destruct k'; unfold sonb in Hin; cbn [fst snd sq_nb oct_nb In] in Hin;
        repeat (destruct Hin as [Hin|Hin]; [injection Hin; clear Hin; intros; first [exfalso; lia | left; lia | right; split; [lia|split; intros; lia] | exfalso; apply Hne'; split; [reflexivity|lia]]|]); try contradiction Hin.
    - unfold so_piv in Hin. unfold soa in A; cbn [fst snd] in A. unfold soo in A. destruct (Z.eqb_spec (y mod 2) 0) as [Ey|Ey].
      + destruct ((x =? 6 * m - y + 4) && (0 <? y)) eqn:EE; [apply andb_true_iff in EE; rewrite Z.eqb_eq, Z.ltb_lt in EE; destruct EE as [E1 E2]|];
        destruct k'; unfold sonb in Hin; cbn [fst snd sq_nb oct_nb In] in Hin;
        repeat (destruct Hin as [Hin|Hin]; [injection Hin; clear Hin; intros; first [exfalso; lia | left; lia | right; split; [lia|split; intros; lia] | exfalso; apply Hne'; split; [reflexivity|lia]]|]); try contradiction Hin.
      + destruct (Z.eqb_spec x (y - 2));
        destruct k'; unfold sonb in Hin; cbn [fst snd sq_nb oct_nb In] in Hin;
        repeat (destruct Hin as [Hin|Hin]; [injection Hin; clear Hin; intros; first [exfalso; lia | left; lia | right; split; [lia|split; intros; lia] | exfalso; apply Hne'; split; [reflexivity|lia]]|]); try contradiction Hin. Qed.
End SoGeom.
