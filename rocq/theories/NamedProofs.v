(** * NamedProofs: minimum weights by complete enumeration of a kernel, and the shipped codes *)
From Coq Require Import DecimalString DecimalZ DecimalFacts.
From Verif Require Export CssProofs NamedModel.

(** specification: d is the minimum weight of the vectors satisfying P *)
Definition min_weight (P : vec -> Prop) (d : nat) : Prop :=
  (exists v, P v /\ weight v = d) /\ (forall v, P v -> d <= weight v).
(** nontrivial logical operators: in the kernel of the other checks, not a product of the own checks *)
Definition nontrivial_logical (n : nat) (own other : mat) (v : vec) : Prop := in_kernel n other v /\ ~ span n own v.

Fixpoint spanlist (n : nat) (M : mat) : list vec :=
  match M with [] => [vzero n] | r :: M' => let s := spanlist n M' in s ++ map (vxor r) s end.
Lemma spanlist_spec n M : wf n M -> forall v, In v (spanlist n M) <-> span n M v.
Proof. induction M as [|r M IH]; intros W v.
  - simpl. split; [intros [<-|[]]; apply span_zero|]. intros (c & Hc & <-). destruct c; [|discriminate]. left; reflexivity.
  - apply wf_cons in W as [Hr W]. cbn [spanlist]. rewrite in_app_iff, in_map_iff, (IH W v), span_cons_iff by auto. split.
    + intros [H|(x & <- & Hx)]; auto. right. apply (IH W) in Hx. assert (length x = n) by exact (span_length n M x W Hx).
      split; [rewrite vxor_length; lia|]. rewrite (vxor_cancel_l n) by auto. auto.
    + intros [H|[Hl H]]; auto. right. exists (vxor r v). split; [now apply (vxor_cancel_l n)|]. now apply IH. Qed.

Definition min_check (n : nat) (own other : mat) (d : nat) : bool :=
  let vs := spanlist n (kernel n other) in let ks := kernel n own in
  forallb (fun v => if weight v <? d then forallb (fun q => negb (dot v q)) ks else true) vs &&
  existsb (fun v => (weight v =? d) && negb (forallb (fun q => negb (dot v q)) ks)) vs.

Lemma min_check_ok n own other d : wf n own -> wf n other -> min_check n own other d = true ->
  min_weight (nontrivial_logical n own other) d.
Proof. intros W1 W2 H. unfold min_check in H. apply andb_true_iff in H as [HA HE].
  assert (KW : wf n (kernel n other)) by now apply kernel_wf.
  assert (KS : forall v, In v (spanlist n (kernel n other)) <-> in_kernel n other v).
  { intros v. rewrite spanlist_spec by auto. now apply kernel_span. }
  split.
  - apply existsb_exists in HE as (v & Hv & E). apply andb_true_iff in E as [E1 E2]. apply Nat.eqb_eq in E1. exists v. split; auto.
    apply KS in Hv. split; auto. intros S. apply (in_spanb_spec n own v W1 (proj1 Hv)) in S. unfold in_spanb in S.
    apply negb_true_iff in E2. congruence.
  - intros v [Hk NS]. apply KS in Hk as Hv. rewrite forallb_forall in HA. specialize (HA v Hv).
    destruct (Nat.ltb_spec (weight v) d) as [Lt|]; auto. exfalso. apply NS. apply in_spanb_spec; auto. exact (proj1 Hk). Qed.

(** the shipped codes: name, number of qubits, logical qubits, X distance, Z distance *)
Definition doc_table : list (pystr * (nat * Z * nat * nat)) := [
  (str "steane", (7, 1%Z, 3, 3)); (str "tetrahedral", (15, 1%Z, 7, 3)); (str "hamming", (15, 7%Z, 3, 3));
  (str "shor", (9, 1%Z, 3, 3)); (str "carbon", (12, 2%Z, 4, 4)); (str "surface_3", (9, 1%Z, 3, 3));
  (str "surface_5", (25, 1%Z, 5, 5)); (str "golay", (23, 1%Z, 7, 7)) ].

Definition params_ok (c : css) (n : nat) (k : Z) (dx dz : nat) : Prop :=
  sc_n (css_stab c) = n /\ sc_k (css_stab c) = k /\
  css_xdist c = Z.of_nat dx /\ css_zdist c = Z.of_nat dz /\ css_distance c = Z.of_nat (Nat.min dx dz) /\
  orthogonal (nd_rows (css_Hx c)) (nd_rows (css_Hz c)) /\
  min_weight (nontrivial_logical n (nd_rows (css_Hx c)) (nd_rows (css_Hz c))) dx /\
  min_weight (nontrivial_logical n (nd_rows (css_Hz c)) (nd_rows (css_Hx c))) dz.

Definition ndwfb (h : nd) : bool := forallb (fun r => length r =? nd_cols h) (nd_rows h).
Lemma ndwfb_ok h : ndwfb h = true -> nd_ok h.
Proof. unfold ndwfb, nd_ok, wf. rewrite forallb_forall. intros H. apply Forall_forall. intros r Hr. apply Nat.eqb_eq. now apply H. Qed.

Definition code_check (hx hz : nd) (n : nat) (k : Z) (dx dz : nat) : bool :=
  ndwfb hx && ndwfb hz && (nd_cols hx =? n) && (nd_cols hz =? n) &&
  negb (existsb (existsb (fun b => b)) (mulABt (nd_rows hx) (nd_rows hz))) && negb (length (nd_rows hx) =? 0) &&
  (Z.of_nat n - Z.of_nat (rk n (nd_rows hx)) - Z.of_nat (rk n (nd_rows hz)) =? k)%Z &&
  (0 <? Nat.min dx dz) && min_check n (nd_rows hx) (nd_rows hz) dx && min_check n (nd_rows hz) (nd_rows hx) dz.

Lemma code_check_ok L hx hz n k dx dz : code_check hx hz n k dx dz = true ->
  exists c, CSSCode L (Z.min (Z.of_nat dx) (Z.of_nat dz)) (Some hx) (Some hz) (Some (Z.of_nat dx)) (Some (Z.of_nat dz)) = Ret c /\ params_ok c n k dx dz.
Proof. unfold code_check. rewrite !andb_true_iff. intros [[[[[[[[[A1 A2] A3] A4] A5] A6] A7] A8] A9] A10].
  apply ndwfb_ok in A1, A2. apply Nat.eqb_eq in A3, A4. apply negb_true_iff in A5. apply mulABt_any in A5.
  apply Z.eqb_eq in A7. apply Nat.ltb_lt in A8.
  assert (WX : wf n (nd_rows hx)) by (rewrite <- A3; exact A1). assert (WZ : wf n (nd_rows hz)) by (rewrite <- A4; exact A2).
  assert (I : css_input (Z.min (Z.of_nat dx) (Z.of_nat dz)) (Some hx) (Some hz) (Some (Z.of_nat dx)) (Some (Z.of_nat dz))).
  { unfold css_input, hx_of, hz_of. split; [left; discriminate|]. split; [congruence|]. split; [exact A5|]. split; [left; intros E; rewrite E in A6; discriminate|].
    split; [lia|]. split; intros x E; injection E as <-; lia. }
  apply (CSSCode_iff L) in I as [c Hc]; [|exact A1 | exact A2]. exists c. split; auto.
  destruct (CSSCode_inv L _ (Some hx) (Some hz) _ _ c A1 A2 Hc) as ((EX & EZ & _ & _ & O & _ & _ & En & _ & EK) & D1 & D2 & D3).
  cbn [hx_of hz_of] in *. unfold params_ok. rewrite EX, EZ. cbn [nd_rows]. rewrite A3 in *.
  split; auto. split; [congruence|]. split; auto. split; auto. split; [rewrite D1; lia|]. split; auto.
  split; apply min_check_ok; auto. Qed.

Lemma int_str_inj a b : int_str a = int_str b -> a = b.
Proof. unfold int_str. intros H. assert (E : NilEmpty.string_of_int (Z.to_int a) = NilEmpty.string_of_int (Z.to_int b)).
  { rewrite <- (string_of_list_ascii_of_string (NilEmpty.string_of_int (Z.to_int a))), H. apply string_of_list_ascii_of_string. }
  assert (E2 : Some (Z.to_int a) = Some (Z.to_int b)) by (rewrite <- !NilEmpty.isi, E; reflexivity).
  injection E2 as E2. rewrite <- (DecimalZ.of_to a), <- (DecimalZ.of_to b), E2. reflexivity. Qed.

Lemma str_eqb_eq a b : str_eqb a b = true <-> a = b.
Proof. unfold str_eqb. destruct (list_eq_dec ascii_dec a b); split; auto; discriminate. Qed.
Lemma str_eqb_refl a : str_eqb a a = true. Proof. now apply str_eqb_eq. Qed.

Lemma lookup_in {A} nm (d : list (pystr * A)) v : lookup nm d = Some v -> In nm (map fst d).
Proof. induction d as [|[k w] d IH]; cbn [lookup map fst]; [discriminate|]. destruct (str_eqb nm k) eqn:E.
  - intros _. apply str_eqb_eq in E. left; auto.
  - intros H. right. auto. Qed.
Lemma lookup_paths nm hxz : lookup nm paths = Some hxz -> In nm (map fst doc_table).
Proof. intros H. apply lookup_in in H. simpl in *. tauto. Qed.

(** every key of the table *)
Lemma table_ok L key n k dx dz : In (key, (n, k, dx, dz)) doc_table ->
  exists hx hz, lookup key paths = Some (hx, hz) /\ lookup key distances = Some (Z.of_nat dx, Z.of_nat dz) /\
  exists c, CSSCode L (Z.min (Z.of_nat dx) (Z.of_nat dz)) (Some hx) (Some hz) (Some (Z.of_nat dx)) (Some (Z.of_nat dz)) = Ret c /\ params_ok c n k dx dz.
Proof. intros H. unfold doc_table in H. simpl In in H.
  repeat match type of H with _ \/ _ => destruct H as [H|H] | False => destruct H end;
  injection H as <- <- <- <- <-; do 2 eexists; (split; [reflexivity|]); (split; [reflexivity|]);
  apply code_check_ok; vm_compute; reflexivity. Qed.
