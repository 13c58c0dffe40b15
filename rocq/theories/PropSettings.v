(* Property C69: parameter grids and settings files. *)
From Coq Require Import List String Arith Bool Lia FinFun.
From Verif Require Import SettingsModel.
Import ListNotations.
Local Open Scope nat_scope.
Local Open Scope list_scope.

Section S.
Context {V : Type}.

Lemma dget_in {A} (d : pdict A) k v : NoDup (map fst d) -> In (k, v) d -> dget k d = Some v.
Proof.
  induction d as [|[k' w] d IH]; simpl; [tauto|]. intros N [E|I].
  - injection E as -> ->. rewrite String.eqb_refl. auto.
  - inversion N as [|? ? N1 N2]; subst. destruct (String.eqb_spec k k') as [->|]; [|auto]. exfalso. apply N1. apply (in_map fst) in I. auto.
Qed.
Lemma dget_some {A} (d : pdict A) k v : dget k d = Some v -> In (k, v) d.
Proof. induction d as [|[k' w] d IH]; simpl; [discriminate|]. destruct (String.eqb_spec k k'); [intros [= ->]; subst; auto|auto]. Qed.

Lemma product_in (vals : list (list V)) t : In t (product vals) <-> Forall2 (fun x v => In x v) t vals.
Proof.
  revert t. induction vals as [|v r IH]; intros t; cbn [product].
  - simpl. split; [intros [<-|[]]; constructor|]. intros F. inversion F. auto.
  - rewrite in_flat_map. split.
    + intros [x [I J]]. apply in_map_iff in J. destruct J as [t' [<- J]]. constructor; auto. apply IH; auto.
    + intros F. inversion F as [|x ? t' ? X F']; subst. exists x. split; auto. apply in_map. apply IH; auto.
Qed.
Lemma NoDup_map_cons (x : V) l : NoDup l -> NoDup (map (cons x) l).
Proof. intros N. apply Injective_map_NoDup; auto. intros a b E. congruence. Qed.
Lemma NoDup_app_disj {A} (a b : list A) : NoDup a -> NoDup b -> (forall x, In x a -> In x b -> False) -> NoDup (a ++ b).
Proof.
  induction a as [|x a IH]; simpl; intros Na Nb D; auto. inversion Na; subst. constructor.
  - intros I. apply in_app_or in I. destruct I as [I|I]; [contradiction|]. apply (D x); auto.
  - apply IH; auto. intros y I J. apply (D y); auto.
Qed.
Lemma product_nodup (vals : list (list V)) : Forall (@NoDup V) vals -> NoDup (product vals).
Proof.
  induction 1 as [|v r N F IH]; cbn [product]; [repeat constructor; auto|].
  induction v as [|x v IHv]; simpl; [constructor|]. inversion N as [|? ? N1 N2]; subst. apply NoDup_app_disj.
  - apply NoDup_map_cons. auto.
  - apply IHv; auto.
  - intros t I J. apply in_map_iff in I. destruct I as [t' [<- _]]. apply in_flat_map in J. destruct J as [y [Y J]].
    apply in_map_iff in J. destruct J as [t'' [E _]]. injection E as -> _. contradiction.
Qed.
Lemma product_length (vals : list (list V)) : List.length (product vals) = fold_right (fun v a => List.length v * a) 1 vals.
Proof.
  induction vals as [|v r IH]; cbn [product fold_right]; auto. rewrite <- IH. clear IH. induction v as [|x v IHv]; simpl; auto.
  rewrite app_length, map_length, IHv. auto.
Qed.

Lemma combine_values (ks : list string) (t : list V) : List.length ks = List.length t -> map snd (combine ks t) = t /\ map fst (combine ks t) = ks.
Proof. revert t. induction ks as [|k ks IH]; intros [|x t] E; simpl in *; auto; try discriminate. destruct (IH t); [lia|]. split; congruence. Qed.
Lemma Forall2_len {A B} (P : A -> B -> Prop) l m : Forall2 P l m -> List.length l = List.length m.
Proof. induction 1; simpl; auto. Qed.
Lemma combine_inj (ks : list string) (a b : list V) : List.length ks = List.length a -> List.length ks = List.length b -> combine ks a = combine ks b -> a = b.
Proof. intros A B E. destruct (combine_values ks a A) as [X _], (combine_values ks b B) as [Y _]. congruence. Qed.

(* C69: product_dict yields every choice of one value per key, each once if no list of values has repetitions *)
Theorem C69_product (kw : pdict (list V)) : NoDup (map fst kw) ->
  (forall d, In d (product_dict kw) <-> map fst d = map fst kw /\ forall k v, In (k, v) d -> exists vs, In (k, vs) kw /\ In v vs) /\
  (Forall (fun kv => NoDup (snd kv)) kw -> NoDup (product_dict kw)) /\
  List.length (product_dict kw) = fold_right (fun kv a => List.length (snd kv) * a) 1 kw.
Proof.
  intros ND. split; [|split].
  - intros d. unfold product_dict. rewrite in_map_iff. split.
    + intros [t [<- I]]. apply product_in in I. assert (L := Forall2_len _ _ _ I). rewrite map_length in L.
      destruct (combine_values (map fst kw) t) as [A B]; [rewrite map_length; auto|]. split; auto.
      clear - I. revert t I. induction kw as [|[k0 vs] kw IH]; intros t I k v J; simpl in *; [contradiction|].
      inversion I as [|x ? t' ? X F]; subst. simpl in J. destruct J as [E|J].
      * injection E as -> ->. exists vs. auto.
      * destruct (IH _ F k v J) as [vs' [P Q]]. exists vs'. auto.
    + intros [E A]. exists (map snd d). split.
      * rewrite <- E. clear. induction d as [|[k v] d IH]; simpl; [auto|]. f_equal. auto.
      * apply product_in. revert d E A. induction kw as [|[k0 vs] kw IH]; intros [|[k v] d] E A; try discriminate; simpl; [constructor|].
        simpl in E. injection E as -> E. inversion ND as [|? ? N1 N2]; subst. constructor.
        -- destruct (A k0 v) as [vs' [[P|P] Q]]; [simpl; auto|congruence|]. exfalso. apply N1. apply (in_map fst) in P. auto.
        -- apply (IH N2 d E). intros k' v' I. destruct (A k' v') as [vs' [[P|P] Q]]; [simpl; auto| |eauto].
           injection P as -> _. exfalso. apply N1. rewrite <- E. apply (in_map fst) in I. auto.
  - intros F. unfold product_dict. assert (N : NoDup (product (map snd kw))).
    { apply product_nodup. apply Forall_forall. intros v I. apply in_map_iff in I. destruct I as [[k vs] [<- I]].
      rewrite Forall_forall in F. apply (F _ I). }
    assert (L : forall t, In t (product (map snd kw)) -> List.length (map fst kw) = List.length t).
    { intros t I. apply product_in in I. apply Forall2_len in I. rewrite !map_length in *. auto. }
    revert N L. generalize (product (map snd kw)) as l. induction l as [|t l IH]; intros N L; simpl; [constructor|].
    inversion N as [|? ? N1 N2]; subst. constructor.
    + intros I. apply in_map_iff in I. destruct I as [t' [E I]]. apply combine_inj in E; [subst; contradiction| |]; apply L; simpl; auto.
    + apply IH; auto. intros t' I. apply L. simpl; auto.
  - unfold product_dict. rewrite map_length, product_length. clear. induction kw as [|[k vs] kw IH]; simpl; auto.
Qed.

Lemma zip_ne_nth (r : list (list V)) : forall v i, nth_error (zip_ne v r) i =
  if forallb (fun w => i <? List.length w) (v :: r) then Some (flat_map (fun w => match nth_error w i with Some x => [x] | None => [] end) (v :: r)) else None.
Proof.
  assert (Z : forall v t i, nth_error (zip_cons v t) i = match nth_error v i, nth_error t i with Some x, Some y => Some (x :: y) | _, _ => @None (list V) end).
  { induction v as [|x v IH]; intros t i; [destruct i; reflexivity|]. destruct t as [|y t]; simpl.
    - destruct i; simpl; auto. destruct (nth_error v i); auto.
    - destruct i; simpl; auto. }
  assert (LT : forall (w : list V) i, match nth_error w i with Some _ => (i <? List.length w) = true | None => (i <? List.length w) = false end).
  { intros w i. destruct (nth_error w i) eqn:E.
    - apply Nat.ltb_lt. apply nth_error_Some. congruence.
    - apply Nat.ltb_ge. apply nth_error_None. auto. }
  induction r as [|w r IH]; intros v i; cbn [zip_ne].
  - rewrite nth_error_map. specialize (LT v i). cbn [forallb flat_map]. destruct (nth_error v i); rewrite LT; auto.
  - rewrite Z, IH. cbn [forallb flat_map]. assert (H := LT v i). destruct (nth_error v i) as [x|]; rewrite H; cbn [andb].
    + destruct ((i <? List.length w) && forallb (fun w0 => i <? List.length w0) r); auto.
    + auto.
Qed.

(* zip_dict: as many dictionaries as the shortest list has values (none without keys); the i-th maps every key to its i-th value *)
Theorem C69_zip (kw : pdict (list V)) i : NoDup (map fst kw) ->
  match nth_error (zip_dict kw) i with
  | Some d => kw <> [] /\ map fst d = map fst kw /\ forall k vs, In (k, vs) kw -> exists v, nth_error vs i = Some v /\ dget k d = Some v
  | None => kw = [] \/ exists k vs, In (k, vs) kw /\ List.length vs <= i
  end.
Proof.
  intros ND. unfold zip_dict. rewrite nth_error_map. destruct kw as [|[k0 v0] kw]; [destruct i; simpl; auto|].
  cbn [map snd zip]. rewrite zip_ne_nth. cbn [option_map].
  destruct (forallb (fun w => i <? List.length w) (v0 :: map snd kw)) eqn:F; cbn [option_map].
  - split; [discriminate|]. change (v0 :: map snd kw) with (map snd ((k0, v0) :: kw)) in *. change (fst (k0, v0) :: map fst kw) with (map fst ((k0, v0) :: kw)).
    set (l := (k0, v0) :: kw) in *. clearbody l. clear k0 v0 kw.
    assert (G : map fst (combine (map fst l) (flat_map (fun w => match nth_error w i with Some x => [x] | None => [] end) (map snd l))) = map fst l /\
      forall k vs, In (k, vs) l -> exists v, nth_error vs i = Some v /\ In (k, v) (combine (map fst l) (flat_map (fun w => match nth_error w i with Some x => [x] | None => [] end) (map snd l)))).
    { clear ND. induction l as [|[k w] l IH]; [split; [reflexivity|intros ? ? []]|]. cbn [map snd fst forallb] in F. apply andb_prop in F. destruct F as [F1 F2].
      apply Nat.ltb_lt in F1. cbn [map snd fst flat_map]. destruct (nth_error w i) as [x|] eqn:E; [|apply nth_error_None in E; lia].
      destruct (IH F2) as [A B]. simpl. split; [congruence|]. intros k' vs [P|P].
      - injection P as <- <-. exists x. auto.
      - destruct (B k' vs P) as [v [Q R]]. exists v. auto. }
    destruct G as [A B]. split; auto. intros k vs I. destruct (B k vs I) as [v [Q R]]. exists v. split; auto. apply dget_in; auto. rewrite A. auto.
  - right. change (v0 :: map snd kw) with (map snd ((k0, v0) :: kw)) in F. clear ND. revert F. generalize ((k0, v0) :: kw) as l. clear.
    induction l as [|[k w] l IH]; cbn [map snd forallb]; [discriminate|]. intros F. destruct (Nat.ltb_spec i (List.length w)).
    + destruct (IH F) as [k' [vs [P Q]]]. exists k', vs. split; [right|]; auto.
    + exists k, w. split; [left|]; auto.
Qed.

Context (veq : forall a b : V, {a = b} + {a <> b}).
Lemma dget_app {A} k (d e : pdict A) : dget k (d ++ e) = match dget k d with Some v => Some v | None => dget k e end.
Proof. induction d as [|[k' v] d IH]; simpl; auto. destruct (String.eqb k k'); auto. Qed.
Lemma dget_dset {A} k k' (v : A) d : dget k (dset k' v d) = if String.eqb k k' then Some v else dget k d.
Proof.
  induction d as [|[k0 w] d IH]; simpl; auto. destruct (String.eqb_spec k' k0) as [->|N]; simpl.
  - destruct (String.eqb k k0); auto.
  - destruct (String.eqb_spec k k0) as [->|N2]; auto. destruct (String.eqb_spec k0 k') as [->|]; congruence.
Qed.
(* the values of a keyword in a list of settings, in order, without repetitions *)
Definition values (k : string) (l : list (string * V)) : list V := map snd (filter (fun kv => String.eqb k (fst kv)) l).
Definition add_new (acc : list V) (v : V) : list V := if in_dec veq v acc then acc else acc ++ [v].
Definition firsts (l : list V) : list V := fold_left add_new l [].

Lemma add_setting_get acc kv k : dget k (add_setting veq acc kv) =
  if String.eqb k (fst kv) then Some (add_new (match dget k acc with Some l => l | None => [] end) (snd kv)) else dget k acc.
Proof.
  destruct kv as [k0 v]. unfold add_setting. cbn [fst snd]. destruct (dget k0 acc) as [l|] eqn:E.
  - rewrite E. destruct (in_dec veq v l) as [I|I].
    + destruct (String.eqb_spec k k0) as [->|N]; auto. rewrite E. unfold add_new. destruct (in_dec veq v l); [auto|contradiction].
    + rewrite dget_dset. destruct (String.eqb_spec k k0) as [->|N]; auto. rewrite E. unfold add_new. destruct (in_dec veq v l); [contradiction|auto].
  - rewrite dget_app, E. cbn [dget]. rewrite String.eqb_refl. destruct (in_dec veq v []) as [[]|_].
    rewrite dget_dset, dget_app. cbn [dget]. destruct (String.eqb_spec k k0) as [->|N]; [rewrite E; reflexivity|].
    destruct (dget k acc); auto.
Qed.
Lemma extract_flat lines : extract_settings veq lines = fold_left (add_setting veq) (List.concat lines) [].
Proof.
  unfold extract_settings. generalize (@nil (string * list V)) as acc. induction lines as [|l lines IH]; intros acc; simpl; auto.
  rewrite fold_left_app. auto.
Qed.
Lemma fold_get l : forall acc k, dget k (fold_left (add_setting veq) l acc) =
  match values k l with [] => dget k acc | vs => Some (fold_left add_new vs (match dget k acc with Some x => x | None => [] end)) end.
Proof.
  induction l as [|kv l IH]; intros acc k; [reflexivity|]. cbn [fold_left]. rewrite IH, add_setting_get. unfold values. cbn [filter].
  destruct (String.eqb k (fst kv)); [|reflexivity]. cbn [map fold_left]. destruct (map snd _); reflexivity.
Qed.
Lemma firsts_spec l : forall acc, NoDup acc -> NoDup (fold_left add_new l acc) /\ forall v, In v (fold_left add_new l acc) <-> In v acc \/ In v l.
Proof.
  induction l as [|x l IH]; intros acc N; simpl; [split; auto; intros v; tauto|].
  assert (NA : NoDup (add_new acc x) /\ forall v, In v (add_new acc x) <-> In v acc \/ v = x).
  { unfold add_new. destruct (in_dec veq x acc) as [I|I]; [split; auto; intros v; intuition; subst; auto|]. split.
    - apply NoDup_app_disj; auto; [repeat constructor; auto|]. intros y J [->|[]]. contradiction.
    - intros v. rewrite in_app_iff. simpl. intuition. }
  destruct NA as [N1 N2]. destruct (IH _ N1) as [A B]. split; auto. intros v. rewrite B, N2. intuition.
Qed.

(* C69: extract_settings lists for every keyword of the file its distinct values, in the order in which they first appear *)
Theorem C69_extract (lines : list (pdict V)) k :
  match dget k (extract_settings veq lines) with
  | None => forall line v, In line lines -> ~ In (k, v) line
  | Some l => l = firsts (values k (List.concat lines)) /\ NoDup l /\ forall v, In v l <-> exists line, In line lines /\ In (k, v) line
  end.
Proof.
  rewrite extract_flat, fold_get. cbn [dget].
  assert (IV : forall v, In v (values k (List.concat lines)) <-> exists line, In line lines /\ In (k, v) line).
  { intros v. unfold values. rewrite in_map_iff. split.
    - intros [[k' v'] [E I]]. simpl in E. subst v'. apply filter_In in I. destruct I as [I J]. simpl in J. apply String.eqb_eq in J. subst k'.
      apply in_concat in I. destruct I as [l [A B]]. eauto.
    - intros [l [A B]]. exists (k, v). split; auto. apply filter_In. simpl. rewrite String.eqb_refl. split; auto. apply in_concat. eauto. }
  destruct (values k (List.concat lines)) as [|x vs] eqn:E.
  - intros line v I J. destruct (proj2 (IV v)). eauto.
  - split; [reflexivity|]. change (fold_left add_new (x :: vs) []) with (fold_left add_new (x :: vs) []).
    destruct (firsts_spec (x :: vs) [] (NoDup_nil V)) as [A B]. split; auto. intros v. rewrite <- IV, B. simpl. tauto.
Qed.

(* BpParams.from_dict: a field has the value given for it, or its default; other entries are ignored *)
Theorem C69_from_dict (defaults d : pdict V) f v0 : NoDup (map fst defaults) -> In (f, v0) defaults ->
  dget f (from_dict defaults d) = Some (match dget f d with Some v => v | None => v0 end) /\ map fst (from_dict defaults d) = map fst defaults.
Proof.
  intros ND I. unfold from_dict. split.
  - apply dget_in.
    + rewrite map_map. simpl. exact ND.
    + apply in_map_iff. exists (f, v0). split; auto. cbn [fst snd]. f_equal.
      assert (X : existsb (String.eqb f) (map fst defaults) = true).
      { apply existsb_exists. exists f. split; [apply (in_map fst) in I; auto|apply String.eqb_refl]. }
      replace (dget f (filter (fun kv => existsb (String.eqb (fst kv)) (map fst defaults)) d)) with (dget f d); auto.
      clear I. induction d as [|[k v] d IH]; simpl; auto. destruct (String.eqb_spec f k) as [->|N].
      * rewrite X. simpl. rewrite String.eqb_refl. auto.
      * destruct (existsb (String.eqb k) (map fst defaults)); simpl; auto. destruct (String.eqb_spec f k); [congruence|auto].
  - rewrite map_map. reflexivity.
Qed.
End S.

Local Open Scope string_scope.
Example C69_nonvacuous :
  product_dict [("p", [1; 2]); ("q", [7]); ("r", [0; 3])] =
    [[("p", 1); ("q", 7); ("r", 0)]; [("p", 1); ("q", 7); ("r", 3)]; [("p", 2); ("q", 7); ("r", 0)]; [("p", 2); ("q", 7); ("r", 3)]] /\
  zip_dict [("p", [1; 2; 5]); ("r", [0; 3])] = [[("p", 1); ("r", 0)]; [("p", 2); ("r", 3)]] /\
  extract_settings Nat.eq_dec [[("p", 1); ("q", 4)]; [("p", 2); ("s", 1)]; [("p", 1); ("q", 5)]] = [("p", [1; 2]); ("q", [4; 5]); ("s", [1])] /\
  from_dict [("max_bp_iter", 30); ("osd_order", 10)] [("osd_order", 3); ("sigma", 4)] = [("max_bp_iter", 30); ("osd_order", 3)].
Proof. repeat split; vm_compute; reflexivity. Qed.
Print Assumptions C69_product.
Print Assumptions C69_zip.
Print Assumptions C69_extract.
Print Assumptions C69_from_dict.
