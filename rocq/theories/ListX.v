(** * ListX: indexed reads/writes on lists (std::vector), used by the models. *)
From Coq Require Export List Arith Bool Lia.
Export ListNotations.

Fixpoint set_nth {A} (i : nat) (x : A) (l : list A) : list A :=
  match l, i with
  | [], _ => []
  | _ :: t, 0 => x :: t
  | h :: t, S i' => h :: set_nth i' x t
  end.

(** std::swap(l[i], l[j]) *)
Definition swap_nth {A} (d : A) (i j : nat) (l : list A) : list A :=
  set_nth j (nth i l d) (set_nth i (nth j l d) l).

Lemma set_nth_length {A} i (x : A) l : length (set_nth i x l) = length l.
Proof. revert i; induction l as [|h t IH]; intros [|i]; simpl; auto. Qed.

Lemma swap_nth_length {A} (d : A) i j l : length (swap_nth d i j l) = length l.
Proof. unfold swap_nth; now rewrite !set_nth_length. Qed.

Lemma nth_set_nth {A} (d : A) i x l k : i < length l ->
  nth k (set_nth i x l) d = if k =? i then x else nth k l d.
Proof. revert i k; induction l as [|h t IH]; simpl; intros i k Hi; [lia|].
  destruct i, k; simpl; auto. apply IH; lia. Qed.

Lemma nth_set_nth_eq {A} (d : A) i x l : i < length l -> nth i (set_nth i x l) d = x.
Proof. intros; rewrite nth_set_nth by auto. now rewrite Nat.eqb_refl. Qed.

Lemma nth_set_nth_neq {A} (d : A) i x l k : k <> i -> nth k (set_nth i x l) d = nth k l d.
Proof. revert i k; induction l as [|h t IH]; intros i k Hi; [destruct i; reflexivity|].
  destruct i as [|i], k as [|k]; simpl; try lia; try reflexivity; apply IH; lia. Qed.

Lemma nth_swap_nth {A} (d : A) i j l k : i < length l -> j < length l ->
  nth k (swap_nth d i j l) d = if k =? i then nth j l d else if k =? j then nth i l d else nth k l d.
Proof. intros Hi Hj. unfold swap_nth. rewrite !nth_set_nth by (rewrite ?set_nth_length; auto).
  destruct (k =? j) eqn:E1, (k =? i) eqn:E2; auto.
  apply Nat.eqb_eq in E1, E2. now subst. Qed.
