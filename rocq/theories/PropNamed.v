(** * Property C16: the codes shipped under from_code_name (codes/css_code.py:160-220). *)
From Verif Require Import CssProofs NamedProofs.

(** which documented entry a name and a distance select *)
Definition selects (nm : pystr) (d : option Z) (key : pystr) : Prop :=
  lower nm <> str "surface" /\ lower nm = key \/
  lower nm = str "surface" /\ ((d = None \/ d = Some 3%Z) /\ key = str "surface_3" \/ d = Some 5%Z /\ key = str "surface_5").

Lemma resolve_selects nm d key : In key (map fst doc_table) -> (resolve_name nm d = key <-> selects nm d key).
Proof. intros HK. unfold resolve_name, selects. destruct (str_eqb (lower nm) (str "surface")) eqn:E.
  - apply str_eqb_eq in E. rewrite E.
    assert (S3 : str "surface_3" = str "surface" ++ str "_" ++ int_str 3) by reflexivity.
    assert (S5 : str "surface_5" = str "surface" ++ str "_" ++ int_str 5) by reflexivity.
    assert (INJ : forall a b, str "surface" ++ str "_" ++ int_str a = str "surface" ++ str "_" ++ int_str b -> a = b).
    { intros a b H. apply app_inv_head in H. apply app_inv_head in H. now apply int_str_inj. }
    split.
    + intros H. right. split; auto. rewrite <- H in HK. simpl map in HK.
      assert (Hin : str "surface" ++ str "_" ++ int_str (match d with None => 3%Z | Some z => z end) = str "surface_3" \/ str "surface" ++ str "_" ++ int_str (match d with None => 3%Z | Some z => z end) = str "surface_5").
      { simpl In in HK. repeat destruct HK as [HK|HK]; auto; try (exfalso; revert HK; simpl; discriminate). destruct HK. }
      destruct Hin as [Hin|Hin].
      * left. split; [|congruence]. rewrite S3 in Hin. apply INJ in Hin. destruct d; [right; congruence | left; reflexivity].
      * right. split; [|congruence]. rewrite S5 in Hin. apply INJ in Hin. destruct d; [congruence | discriminate].
    + intros [[N _]|[_ [[[->| ->] ->]|[-> ->]]]]; [congruence | reflexivity..].
  - assert (N : lower nm <> str "surface") by (intros H; apply str_eqb_eq in H; congruence). split; [intros; left; auto|]. intros [[_ H]|[H _]]; auto. congruence. Qed.

(** Every name selecting a documented entry builds a code with the documented number of physical and
    logical qubits whose recorded distances are the true minimum weights of nontrivial logical operators. *)
Theorem C16_named_codes : forall L nm d key n k dx dz,
  In (key, (n, k, dx, dz)) doc_table -> selects nm d key ->
  exists c, from_code_name L nm d = Ret c /\
    sc_n (css_stab c) = n /\ sc_k (css_stab c) = k /\
    css_xdist c = Z.of_nat dx /\ css_zdist c = Z.of_nat dz /\ css_distance c = Z.of_nat (Nat.min dx dz) /\
    (forall a b, In a (nd_rows (css_Hx c)) -> In b (nd_rows (css_Hz c)) -> dot a b = false) /\
    min_weight (fun v => in_kernel n (nd_rows (css_Hz c)) v /\ ~ span n (nd_rows (css_Hx c)) v) dx /\
    min_weight (fun v => in_kernel n (nd_rows (css_Hx c)) v /\ ~ span n (nd_rows (css_Hz c)) v) dz.
Proof. intros L nm d key n k dx dz HT HS. pose proof (in_map fst _ _ HT) as HK. apply (resolve_selects nm d key HK) in HS.
  destruct (table_ok L key n k dx dz HT) as (hx & hz & E1 & E2 & c & Ec & P). exists c. split; [|exact P].
  unfold from_code_name. rewrite HS, E1, E2. exact Ec. Qed.
Print Assumptions C16_named_codes.

(** Every other name, and "surface" with a distance other than 3 and 5, is rejected. *)
Theorem C16_unknown_rejected : forall L nm d,
  (forall key, In key (map fst doc_table) -> ~ selects nm d key) -> from_code_name L nm d = Raise InvalidCSSCodeError.
Proof. intros L nm d H. unfold from_code_name. destruct (lookup (resolve_name nm d) paths) as [[hx hz]|] eqn:E; auto.
  apply lookup_paths in E. exfalso. apply (H _ E). now apply resolve_selects. Qed.
Print Assumptions C16_unknown_rejected.

(** the documented [[n, k, d]] of each name (docstring 163-171) *)
Theorem C16_documented_parameters : forall key n k dx dz, In (key, (n, k, dx, dz)) doc_table ->
  In (key, (n, k, Nat.min dx dz)) [ (str "steane", (7, 1%Z, 3)); (str "tetrahedral", (15, 1%Z, 3)); (str "hamming", (15, 7%Z, 3));
     (str "shor", (9, 1%Z, 3)); (str "carbon", (12, 2%Z, 4)); (str "surface_3", (9, 1%Z, 3)); (str "surface_5", (25, 1%Z, 5)); (str "golay", (23, 1%Z, 7)) ].
Proof. intros key n k dx dz H. unfold doc_table in H. simpl In in H.
  repeat match type of H with _ \/ _ => destruct H as [H|H] | False => destruct H end; injection H as <- <- <- <- <-; simpl; tauto. Qed.
Print Assumptions C16_documented_parameters.

Example C16_nonvacuous : selects (str "SteANE") None (str "steane") /\ selects (str "Surface") None (str "surface_3") /\
  selects (str "surface") (Some 5%Z) (str "surface_5") /\ (exists c, from_code_name ldpc_ref (str "Carbon") None = Ret c) /\
  from_code_name ldpc_ref (str "surface") (Some 7%Z) = Raise InvalidCSSCodeError.
Proof. split; [left; split; [discriminate | reflexivity]|]. split; [right; split; [reflexivity|]; left; split; [left|]; reflexivity|].
  split; [right; split; [reflexivity|]; right; split; reflexivity|]. split; [|vm_compute; reflexivity].
  destruct (C16_named_codes ldpc_ref (str "Carbon") None (str "carbon") 12 2%Z 4 4) as (c & E & _); [simpl; tauto | left; split; [discriminate | reflexivity] | eauto]. Qed.
