(* Auxiliary facts about the file system of FilesModel. *)
From Coq Require Import List String Ascii Arith Bool Decimal DecimalString DecimalNat Lia Permutation.
From Verif Require Import StatsModel FilesModel.
Import ListNotations.
Local Open Scope nat_scope.
Local Open Scope list_scope.

Lemma apath_eqb_spec p q : reflect (p = q) (apath_eqb p q).
Proof. unfold apath_eqb. destruct (list_eq_dec string_dec p q); constructor; auto. Qed.
Lemma apath_eqb_refl p : apath_eqb p p = true.
Proof. destruct (apath_eqb_spec p p); congruence. Qed.

Lemma lookup_write_same p n s : lookup p (write p n s) = Some n.
Proof.
  induction s as [|[q m] s IH]; simpl; [rewrite apath_eqb_refl; auto|].
  destruct (apath_eqb_spec p q); simpl; [subst; rewrite apath_eqb_refl; auto|]. destruct (apath_eqb_spec p q); congruence.
Qed.
Lemma lookup_write_other p q n s : q <> p -> lookup q (write p n s) = lookup q s.
Proof.
  intros N. induction s as [|[r m] s IH]; simpl; [destruct (apath_eqb_spec q p); congruence|].
  destruct (apath_eqb_spec p r); simpl; destruct (apath_eqb_spec q r); auto; congruence.
Qed.
Lemma lookup_in p n s : lookup p s = Some n -> In (p, n) s.
Proof.
  induction s as [|[q m] s IH]; simpl; [discriminate|]. destruct (apath_eqb_spec p q); [intros [= ->]; subst; auto|auto].
Qed.
(* no path has two entries *)
Definition unique_paths (s : fs) : Prop := NoDup (map fst s).
Lemma in_lookup p n s : unique_paths s -> In (p, n) s -> lookup p s = Some n.
Proof.
  induction s as [|[q m] s IH]; simpl; [tauto|]. unfold unique_paths. simpl. intros U [E|I].
  - injection E as -> ->. rewrite apath_eqb_refl. auto.
  - inversion U as [|? ? N U']; subst. destruct (apath_eqb_spec p q) as [->|N'].
    + exfalso. apply N. apply (in_map fst) in I. auto.
    + apply IH; auto.
Qed.
Lemma lookup_none_in p s : lookup p s = None <-> ~ In p (map fst s).
Proof.
  induction s as [|[q m] s IH]; simpl; [tauto|]. destruct (apath_eqb_spec p q) as [->|N].
  - split; [discriminate|tauto].
  - rewrite IH. intuition.
Qed.

Lemma child_of_spec p q x : child_of p q = Some x <-> q = p ++ [x].
Proof.
  revert q. induction p as [|a p IH]; intros [|b q]; simpl.
  - split; discriminate.
  - destruct q; split; congruence.
  - split; discriminate.
  - destruct (String.eqb_spec a b) as [->|N].
    + rewrite IH. split; [intros ->; auto|congruence].
    + split; [discriminate|]. intros [= E]. congruence.
Qed.
Lemma child_of_self p x : child_of p (p ++ [x]) = Some x.
Proof. apply child_of_spec. auto. Qed.
Lemma in_children p x s : In x (children p s) <-> In (p ++ [x]) (map fst s).
Proof.
  unfold children. rewrite in_flat_map, in_map_iff. split.
  - intros [[q n] [I J]]. simpl in J. destruct (child_of p q) as [y|] eqn:E; [|contradiction].
    destruct J as [->|[]]. apply child_of_spec in E. exists (q, n). auto.
  - intros [[q n] [E I]]. simpl in E. exists (q, n). split; auto. simpl. subst. rewrite child_of_self. simpl; auto.
Qed.
Lemma children_nodup p s : unique_paths s -> NoDup (children p s).
Proof.
  induction s as [|[q n] s IH]; intros U; [constructor|]. inversion U as [|? ? N U']; subst. unfold children. simpl.
  destruct (child_of p q) as [x|] eqn:E; [|apply IH; auto]. simpl. constructor; [|apply IH; auto].
  fold (children p s). rewrite in_children. apply child_of_spec in E. subst. auto.
Qed.

(* ---- names ---- *)
Lemma rsplit_app_json a : rsplit (a ++ ".json") = Some (a, "json"%string).
Proof. induction a as [|c a IH]; [reflexivity|]. simpl. rewrite IH. auto. Qed.
Lemma suffix_json a : a <> ""%string -> suffix (a ++ ".json") = Some (a, "json"%string).
Proof. intros N. unfold suffix. rewrite rsplit_app_json. destruct a; congruence. Qed.
Lemma is_json_app a : a <> ""%string -> is_json (a ++ ".json") = true.
Proof. intros N. unfold is_json. rewrite suffix_json; auto. Qed.

Lemma string_app_inv_l (a b c : string) : (a ++ b = a ++ c)%string -> b = c.
Proof. induction a; simpl; auto. intros [= E]. auto. Qed.
Lemma string_app_assoc (a b c : string) : (a ++ (b ++ c) = (a ++ b) ++ c)%string.
Proof. induction a; simpl; congruence. Qed.
Lemma string_app_length (a b : string) : String.length (a ++ b) = String.length a + String.length b.
Proof. induction a; simpl; auto. Qed.
Lemma string_app_inv_r (a b c : string) : (a ++ c = b ++ c)%string -> a = b.
Proof.
  revert b. induction a as [|x a IH]; intros [|y b] E; auto.
  - exfalso. apply (f_equal String.length) in E. simpl in E. rewrite string_app_length in E. lia.
  - exfalso. apply (f_equal String.length) in E. simpl in E. rewrite string_app_length in E. lia.
  - simpl in E. injection E as -> E. f_equal. auto.
Qed.

Lemma to_uint_not_nil n : Nat.to_uint n <> Nil.
Proof.
  intros E. assert (H := Unsigned.to_of (Nat.to_uint n)). rewrite Unsigned.of_to, E in H. discriminate H.
Qed.
Lemma str_nat_inj a b : str_nat a = str_nat b -> a = b.
Proof.
  unfold str_nat. intros E. apply Unsigned.to_uint_inj.
  assert (A := NilZero.usu _ (to_uint_not_nil a)). assert (B := NilZero.usu _ (to_uint_not_nil b)). congruence.
Qed.
Lemma out_file_inj c a b : out_file c a = out_file c b -> a = b.
Proof.
  unfold out_file. intros E. apply app_inv_head in E. injection E as E. apply string_app_inv_l in E. simpl in E.
  injection E as E. apply string_app_inv_r in E. apply str_nat_inj. auto.
Qed.
