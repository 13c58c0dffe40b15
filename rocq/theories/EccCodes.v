(** * EccCodes: the stabilizers of the codes and the templates of their rounds *)
From Coq Require Import NArith ZArith.
From Verif Require Export EccSpec EccSort.

(** ** Templates: the block circuits on the qubits 0, 1, ..., the ancillas after the data, the classical bits from 0, without the resets *)
Definition idq (j : nat) : nat := j.
Definition q3rest : list op := skipn 2 (q3Block idq (Nat.add 3) 0).
Definition s9rest : list op := skipn 8 (s9Block idq (Nat.add 9) 0).
Definition l5rest : list op := map (fun j => h_ (5 + j)) (seq 0 4) ++ skipn 8 (l5Block idq (Nat.add 5) 0).
Definition s7rest (x : bool) : list op := skipn 3 (s7Block x true idq (Nat.add 7) 0).
Definition f9rest : list op := skipn 8 (f9Block true idq (Nat.add 9) 0).
Lemma q3_template d a cl : q3Block d a cl = map Reset (ancs 2 a) ++ map (ren (place 3 d a) cl) q3rest.
Proof. cbn. rewrite !Nat.add_0_r. reflexivity. Qed.
Lemma s9_template d a cl : s9Block d a cl = map Reset (ancs 8 a) ++ map (ren (place 9 d a) cl) s9rest.
Proof. cbn. rewrite !Nat.add_0_r. reflexivity. Qed.
Lemma s7_template x d a cl : s7Block x true d a cl = map Reset (ancs 3 a) ++ map (ren (place 7 d a) cl) (s7rest x).
Proof. destruct x; cbn; rewrite !Nat.add_0_r; reflexivity. Qed.
Lemma f9_template d a cl : f9Block true d a cl = map Reset (ancs 8 a) ++ map (ren (place 9 d a) cl) f9rest.
Proof. cbn. rewrite !Nat.add_0_r, <- !Nat.add_assoc. reflexivity. Qed.

(** the same circuits, check after check *)
Definition ancOf (nd : nat) (o : op) : nat :=
  match o with
  | Gate _ c t => if nd <=? t then t else match c with p :: _ => fst p | [] => 0 end
  | Meas q _ => q
  | _ => 100
  end.
Definition s9sorted : list op := sortOps (ancOf 9) s9rest.
Definition f9key (o : op) : nat :=
  match o with
  | Gate _ c t => match c with [] => t | p :: _ => if 9 <=? t then 20 + t else fst p end
  | Meas q _ => 50
  | _ => 100
  end.
Definition f9sorted : list op := sortOps f9key f9rest.

(** ** The table of syndromes: the first possible record *)
Section Live.
Variable w : nat.
Variable gs : list gen.
Fixpoint live (os : list op) (acc : list bool) (s : sst) : option (list bool * sst) :=
  match ss s with
  | [] => None
  | _ => match os with
         | [] => Some (rev acc, s)
         | o :: os' =>
             let go b acc' := match sop w o b s with Some s' => live os' acc' (normS gs s') | None => None end in
             if isRand o then match go false (false :: acc) with Some r => Some r | None => go true (true :: acc) end else go false acc
         end
  end.
End Live.
Definition findSynd (nd na : nat) (stabs : list (list (gt * nat))) (rest : list op) (e : perr) : list bool :=
  match wordsT (nd + na) (roundWords nd na stabs) with
  | Some ts => match live (nd + na) (ech ts) (word (fun j => j) (eword e) ++ rest) [] init with Some r => fst r | None => [] end
  | None => []
  end.
Definition gtN (g : gt) : nat := match g with GX => 0 | GY => 1 | GZ => 2 | _ => 3 end.
Definition perrEqb (a b : perr) : bool :=
  match a, b with None, None => true | Some (g, i), Some (h, j) => (gtN g =? gtN h) && (i =? j) | _, _ => false end.
Definition lookupS (t : list (perr * list bool)) (e : perr) : list bool := match find (fun p => perrEqb e (fst p)) t with Some p => snd p | None => [] end.
(** the errors: none or one of the gates on one of the qubits *)
Definition errsOf (gts : list gt) (qs : list nat) : list perr := None :: flat_map (fun g => map (fun j => Some (g, j)) qs) gts.
Lemma in_errsOf gts qs e : In e (errsOf gts qs) <-> e = None \/ exists g j, e = Some (g, j) /\ In g gts /\ In j qs.
Proof.
  unfold errsOf. cbn [In]. rewrite in_flat_map. split.
  - intros [<-|[g [Hg He]]]; [now left|]. apply in_map_iff in He. destruct He as [j [<- Hj]]. right. eauto.
  - intros [->|[g [j [-> [Hg Hj]]]]]; [now left|]. right. exists g. split; [exact Hg|]. apply in_map_iff. eauto.
Qed.
Definition table (nd na : nat) stabs rest errs : list (perr * list bool) := map (fun e => (e, findSynd nd na stabs rest e)) errs.
Definition q3tab := Eval vm_compute in table 3 2 q3stabs q3rest (errsOf [GX] (seq 0 3)).
Definition s9tab := Eval vm_compute in table 9 8 s9stabs s9sorted (errsOf [GX; GY; GZ] (seq 0 9)).
Definition l5tab := Eval vm_compute in table 5 4 l5stabs l5rest (errsOf [GX; GY; GZ] (seq 0 5)).
Definition s7tab (x : bool) := Eval vm_compute in if x then table 7 3 s7stabs (s7rest true) (errsOf [GX; GY; GZ] (seq 0 7)) else table 7 3 s7stabs (s7rest false) (errsOf [GX] (seq 0 7)).
Definition f9tab := Eval vm_compute in table 9 8 f9stabs f9sorted (errsOf [GX; GY; GZ] (seq 0 9)).
Definition noRes (e : perr) : option nat := None.
(** the first half of a round of the Steane code leaves the X part of the error *)
Definition s7res (e : perr) : option nat := match e with Some (GX, j) | Some (GY, j) => Some j | _ => None end.
Definition muId (na : nat) (t : list bool) : list bool := firstn na (t ++ repeat false na).
Definition muF9 (t : list bool) : list bool := map (fun k => nth k t false) [0; 1; 2; 3; 5; 4; 7; 6].
Lemma muId_length na t : length (muId na t) = na.
Proof. unfold muId. rewrite firstn_length, app_length, repeat_length. lia. Qed.
Definition chkAll (nd na : nat) stabs rest res tab mu errs : bool :=
  forallb (inT (nd + na)) rest && forallb (fun e => roundChk nd na stabs rest e (res e) (lookupS tab e) (mu (lookupS tab e))) errs.
Lemma q3_chk : chkAll 3 2 q3stabs q3rest noRes q3tab (muId 2) (errsOf [GX] (seq 0 3)) = true.
Proof. vm_compute. reflexivity. Qed.
Lemma s9_chk : chkAll 9 8 s9stabs s9sorted noRes s9tab (muId 8) (errsOf [GX; GY; GZ] (seq 0 9)) = true.
Proof. vm_compute. reflexivity. Qed.
Lemma l5_chk : chkAll 5 4 l5stabs l5rest noRes l5tab (muId 4) (errsOf [GX; GY; GZ] (seq 0 5)) = true.
Proof. vm_compute. reflexivity. Qed.
Lemma s7x_chk : chkAll 7 3 s7stabs (s7rest true) s7res (s7tab true) (muId 3) (errsOf [GX; GY; GZ] (seq 0 7)) = true.
Proof. vm_compute. reflexivity. Qed.
Lemma s7z_chk : chkAll 7 3 s7stabs (s7rest false) noRes (s7tab false) (muId 3) (errsOf [GX] (seq 0 7)) = true.
Proof. vm_compute. reflexivity. Qed.
Lemma f9_chk : chkAll 9 8 f9stabs f9sorted noRes f9tab muF9 (errsOf [GX; GY; GZ] (seq 0 9)) = true.
Proof. vm_compute. reflexivity. Qed.
