(** * Properties C06-C10: general stabilizer codes (codes/stabilizer_code.py). *)
From Verif Require Import StabProofs3 StabSign.

(** ** C06 *)
(** the valid strings are exactly the nonempty printed signed Paulis *)
Theorem C06_valid_strings : forall s, is_pauli_string s = true <-> s <> [] /\ exists sg P, s = print sg P.
Proof. exact is_pauli_string_iff. Qed.
Print Assumptions C06_valid_strings.

(** the binary form is (x bits, z bits, sign) *)
Theorem C06_binary_meaning : forall sg P, print sg P <> [] ->
  pauli_to_binary (print sg P) = Ret (map xbit P ++ map zbit P ++ [neg sg]).
Proof. intros sg P H. rewrite pauli_to_binary_print by exact H. unfold bin, symp. now rewrite <- app_assoc. Qed.
Print Assumptions C06_binary_meaning.

(** string -> binary -> string is the identity up to an explicit '+' *)
Theorem C06_string_roundtrip : forall sg P, print sg P <> [] ->
  exists b, pauli_to_binary (print sg P) = Ret b /\
    binary_to_pauli_string b = Ret (match sg with Minus => print Minus P | _ => print NoSign P end).
Proof. intros sg P H. exists (bin (neg sg) P). rewrite pauli_to_binary_print by exact H. split; [reflexivity|].
  rewrite binary_to_pauli_string_bin. destruct sg; reflexivity. Qed.
Print Assumptions C06_string_roundtrip.

(** binary -> string -> binary is the identity on every vector of odd length 2n+1 with n >= 1 *)
Theorem C06_binary_roundtrip : forall b, Nat.odd (length b) = true -> 1 < length b ->
  exists s, binary_to_pauli_string b = Ret s /\ is_pauli_string s = true /\ pauli_to_binary s = Ret b.
Proof. intros b Ho Hl. destruct (odd_bin b Ho) as (s & P & -> & HL). exists (print (if s then Minus else NoSign) P).
  assert (N : print (if s then Minus else NoSign) P <> []).
  { destruct s; [discriminate|]. destruct P; [simpl in Hl; lia | discriminate]. }
  rewrite binary_to_pauli_string_bin. split; [reflexivity|]. split; [apply is_pauli_string_iff; eauto|].
  rewrite pauli_to_binary_print by exact N. destruct s; reflexivity. Qed.
Print Assumptions C06_binary_roundtrip.

(** on zero qubits the round trip fails: the string is empty and cannot be read back *)
Theorem C06_zero_qubits_refuted : binary_to_pauli_string [false] = Ret [] /\ pauli_to_binary [] = Raise IndexError.
Proof. split; reflexivity. Qed.
Print Assumptions C06_zero_qubits_refuted.

Example C06_nonvacuous : pauli_to_binary (str "-XYZI") = Ret [true;true;false;false; false;true;true;false; true] /\
  binary_to_pauli_string [true;true;false;false; false;true;true;false; true] = Ret (str "-XYZI") /\
  str "-XYZI" = print Minus [PX;PY;PZ;PI].
Proof. repeat split; reflexivity. Qed.

(** ** C07: w is the integer width of the numpy type (wrap-around does not matter) *)
Theorem C07_commute : forall w P Q, (1 <= w)%Z -> length P = length Q ->
  exists b, commute w (symp P) (symp Q) = Ret b /\ anti_commute w (symp P) (symp Q) = Ret (negb b) /\
    (b = true <-> pmul P Q = pmul Q P) /\ (b = true <-> Nat.even (anti_count P Q) = true).
Proof. intros w P Q Hw H. exists (negb (sympl P Q)). unfold anti_commute. rewrite commute_spec by auto. split; [reflexivity|]. split; [reflexivity|].
  split; [apply negb_sympl_true; auto|]. rewrite sympl_anti_count by auto. rewrite Nat.negb_odd. reflexivity. Qed.
Print Assumptions C07_commute.

Theorem C07_all_commute : forall w n Ps Qs, (1 <= w)%Z -> Ps <> [] -> Qs <> [] ->
  Forall (fun P => length P = n) Ps -> Forall (fun P => length P = n) Qs ->
  exists b, all_commute w (map symp Ps) (map symp Qs) = Ret b /\ (b = true <-> forall P Q, In P Ps -> In Q Qs -> pmul P Q = pmul Q P).
Proof. exact all_commute_spec. Qed.
Print Assumptions C07_all_commute.

(** the syndrome bit of generator i is 1 exactly when the error anticommutes with it *)
Theorem C07_syndrome : forall w gs d Lz Lx c e, (1 <= w)%Z -> StabilizerCode w (Strs gs) d (optStrs Lz) (optStrs Lx) = Ret c ->
  e <> [] -> length (snd (parse e)) = sc_n c ->
  exists s, get_syndrome w c e = Ret s /\ length s = length gs /\
   forall i, i < length gs ->
     (nth i s 0%Z = 0%Z \/ nth i s 0%Z = 1%Z) /\
     (nth i s 0%Z = 0%Z <-> pmul (snd (parse (nth i gs []))) (snd (parse e)) = pmul (snd (parse e)) (snd (parse (nth i gs [])))).
Proof. exact syndrome_prop. Qed.
Print Assumptions C07_syndrome.

(** the syndrome of a product is the sum of the syndromes modulo 2, whatever the signs *)
Theorem C07_syndrome_linear : forall w gs d Lz Lx c P Q sP sQ sR, (1 <= w)%Z ->
  StabilizerCode w (Strs gs) d (optStrs Lz) (optStrs Lx) = Ret c -> 0 < sc_n c -> length P = sc_n c -> length Q = sc_n c ->
  exists s t u, get_syndrome w c (print sP P) = Ret s /\ get_syndrome w c (print sQ Q) = Ret t /\
    get_syndrome w c (print sR (snd (pmul P Q))) = Ret u /\
    length s = length gs /\ length t = length gs /\ length u = length gs /\
    forall i, i < length gs -> nth i u 0%Z = ((nth i s 0 + nth i t 0) mod 2)%Z.
Proof. exact syndrome_linear. Qed.
Print Assumptions C07_syndrome_linear.

Example C07_nonvacuous : exists c, StabilizerCode 8 (Strs [str "XZZXI"; str "IXZZX"; str "XIXZZ"; str "ZXIXZ"]) None None None = Ret c /\
  get_syndrome 8 c (str "IIYII") = Ret [1;1;1;0]%Z /\ sc_n c = 5 /\ sc_k c = 1%Z.
Proof. eexists. split; [reflexivity|]. split; [reflexivity|]. split; reflexivity. Qed.

(** ** C08 *)
(** what stabilizer_equivalent computes, exactly: p2 is a stabilizer or p1 p2 is, in the binary form with sign column *)
Theorem C08_exact_answer : forall w gs d Lz Lx c p1 p2, (1 <= w)%Z -> StabilizerCode w (Strs gs) d (optStrs Lz) (optStrs Lx) = Ret c ->
  p1 <> [] -> p2 <> [] -> length (snd (parse p1)) = sc_n c -> length (snd (parse p2)) = sc_n c ->
  exists b, stabilizer_equivalent c p1 p2 = Ret b /\
   (b = true <-> span (2 * sc_n c + 1) (map binsp (map parse gs)) (binsp (parse p2)) \/
                 span (2 * sc_n c + 1) (map binsp (map parse gs)) (vxor (binsp (parse p1)) (binsp (parse p2)))).
Proof. exact equiv_prop. Qed.
Print Assumptions C08_exact_answer.

(** completeness: up to the sign column, equivalent Paulis are always reported equivalent; and a positive
    answer means that p2 or p1 p2 is, up to a phase, an element of the stabilizer group *)
Theorem C08_up_to_phase : forall w gs d Lz Lx c p1 p2, (1 <= w)%Z -> StabilizerCode w (Strs gs) d (optStrs Lz) (optStrs Lx) = Ret c ->
  p1 <> [] -> p2 <> [] -> length (snd (parse p1)) = sc_n c -> length (snd (parse p2)) = sc_n c ->
  stabilizer_equivalent c p1 p2 = Ret true ->
  (exists k, generated (sc_n c) (map signedsp (map parse gs)) (k, snd (parse p2))) \/
  (exists k, generated (sc_n c) (map signedsp (map parse gs)) (k, snd (pmul (snd (parse p1)) (snd (parse p2))))).
Proof. exact equiv_up_to_phase. Qed.
Print Assumptions C08_up_to_phase.

(** exact for CSS-type generators when both operators are of X type (or both of Z type) and p2 is not itself a stabilizer *)
Theorem C08_exact_css : forall w gs d Lz Lx c p1 p2, (1 <= w)%Z -> StabilizerCode w (Strs gs) d (optStrs Lz) (optStrs Lx) = Ret c ->
  css_type (map parse gs) -> p1 <> [] -> p2 <> [] -> length (snd (parse p1)) = sc_n c -> length (snd (parse p2)) = sc_n c ->
  (pureX (snd (parse p1)) /\ pureX (snd (parse p2)) \/ pureZ (snd (parse p1)) /\ pureZ (snd (parse p2))) ->
  ~ generated (sc_n c) (map signedsp (map parse gs)) (signedsp (parse p2)) ->
  exists b, stabilizer_equivalent c p1 p2 = Ret b /\
   (b = true <-> generated (sc_n c) (map signedsp (map parse gs)) (smul (signedsp (parse p1)) (signedsp (parse p2)))).
Proof. exact equiv_css. Qed.
Print Assumptions C08_exact_css.

(** lengths that do not match the code raise an exception *)
Theorem C08_length_mismatch : forall w gs d Lz Lx c p1 p2, (1 <= w)%Z -> StabilizerCode w (Strs gs) d (optStrs Lz) (optStrs Lx) = Ret c ->
  p1 <> [] -> p2 <> [] -> (length (snd (parse p1)) <> sc_n c \/ length (snd (parse p2)) <> sc_n c) ->
  stabilizer_equivalent c p1 p2 = Raise ValueError.
Proof. exact equiv_mismatch. Qed.
Print Assumptions C08_length_mismatch.

(** the intended equivalence fails: an error is reported equivalent to the identity although it
    anticommutes with a stabilizer, and the answer is not symmetric *)
Theorem C08_equivalence_refuted : exists c, StabilizerCode 64 (Strs [str "ZZ"]) None None None = Ret c /\
  stabilizer_equivalent c (str "XI") (str "II") = Ret true /\ stabilizer_equivalent c (str "II") (str "XI") = Ret false /\
  (forall k, ~ generated 2 [signed false [PZ;PZ]] (k, [PX;PI])) /\ get_syndrome 64 c (str "XI") = Ret [1%Z].
Proof. exact equiv_refuted. Qed.
Print Assumptions C08_equivalence_refuted.

(** the sign column is not multiplicative: in the group of XX and ZZ the element is -YY, the code says YY *)
Theorem C08_sign_refuted : exists c, StabilizerCode 64 (Strs [str "XX"; str "ZZ"]) None None None = Ret c /\
  stabilizer_equivalent c (str "II") (str "YY") = Ret true /\ stabilizer_equivalent c (str "II") (str "-YY") = Ret false /\
  generated 2 [signed false [PX;PX]; signed false [PZ;PZ]] (signed true [PY;PY]) /\
  ~ generated 2 [signed false [PX;PX]; signed false [PZ;PZ]] (signed false [PY;PY]).
Proof. exact sign_refuted. Qed.
Print Assumptions C08_sign_refuted.

Example C08_nonvacuous : exists c, StabilizerCode 64 (Strs [str "ZZI"; str "IZZ"]) None None None = Ret c /\
  stabilizer_equivalent c (str "ZII") (str "IIZ") = Ret true /\ stabilizer_equivalent c (str "ZII") (str "XIZ") = Ret false /\
  css_type (map parse [str "ZZI"; str "IZZ"]).
Proof. eexists. split; [reflexivity|]. split; [reflexivity|]. split; [reflexivity|].
  split; simpl.
  - intros g [<-|[<-|[]]]; right; unfold pureZ; simpl; auto 10.
  - intros g h [<-|[<-|[]]] [<-|[<-|[]]]; reflexivity. Qed.

(** ** C09 *)
Theorem C09_eq_iff_same_span : forall w gs1 d1 Lz1 Lx1 c1 gs2 d2 Lz2 Lx2 c2, (1 <= w)%Z ->
  StabilizerCode w (Strs gs1) d1 (optStrs Lz1) (optStrs Lx1) = Ret c1 -> StabilizerCode w (Strs gs2) d2 (optStrs Lz2) (optStrs Lx2) = Ret c2 ->
  sc_n c1 = sc_n c2 ->
  exists b, code_eq c1 c2 = Ret b /\
   (b = true <-> forall v, span (2 * sc_n c1 + 1) (map binsp (map parse gs1)) v <-> span (2 * sc_n c1 + 1) (map binsp (map parse gs2)) v).
Proof. exact eq_prop. Qed.
Print Assumptions C09_eq_iff_same_span.

(** an equivalence relation on constructed codes over the same number of qubits *)
Theorem C09_equivalence_relation : forall w gs1 d1 Lz1 Lx1 c1 gs2 d2 Lz2 Lx2 c2 gs3 d3 Lz3 Lx3 c3, (1 <= w)%Z ->
  StabilizerCode w (Strs gs1) d1 (optStrs Lz1) (optStrs Lx1) = Ret c1 -> StabilizerCode w (Strs gs2) d2 (optStrs Lz2) (optStrs Lx2) = Ret c2 ->
  StabilizerCode w (Strs gs3) d3 (optStrs Lz3) (optStrs Lx3) = Ret c3 ->
  sc_n c1 = sc_n c2 -> sc_n c2 = sc_n c3 ->
  code_eq c1 c1 = Ret true /\ code_eq c1 c2 = code_eq c2 c1 /\
  (code_eq c1 c2 = Ret true -> code_eq c2 c3 = Ret true -> code_eq c1 c3 = Ret true).
Proof. exact eq_equiv. Qed.
Print Assumptions C09_equivalence_relation.

(** for codes with commuting generators of pure X or Z type, equality is equality of the signed stabilizer groups *)
Theorem C09_css_same_signed_group : forall w gs1 d1 Lz1 Lx1 c1 gs2 d2 Lz2 Lx2 c2, (1 <= w)%Z ->
  StabilizerCode w (Strs gs1) d1 (optStrs Lz1) (optStrs Lx1) = Ret c1 -> StabilizerCode w (Strs gs2) d2 (optStrs Lz2) (optStrs Lx2) = Ret c2 ->
  sc_n c1 = sc_n c2 -> css_type (map parse gs1) -> css_type (map parse gs2) ->
  exists b, code_eq c1 c2 = Ret b /\
   (b = true <-> forall h, generated (sc_n c1) (map signedsp (map parse gs1)) h <-> generated (sc_n c1) (map signedsp (map parse gs2)) h).
Proof. exact eq_css. Qed.
Print Assumptions C09_css_same_signed_group.

(** comparing codes on different numbers of qubits: False if the ranks differ, otherwise an exception *)
Theorem C09_different_sizes : forall w gs1 d1 Lz1 Lx1 c1 gs2 d2 Lz2 Lx2 c2 r1 r2, (1 <= w)%Z ->
  StabilizerCode w (Strs gs1) d1 (optStrs Lz1) (optStrs Lx1) = Ret c1 -> StabilizerCode w (Strs gs2) d2 (optStrs Lz2) (optStrs Lx2) = Ret c2 ->
  sc_n c1 <> sc_n c2 -> has_rank (2 * sc_n c1 + 1) (map binsp (map parse gs1)) r1 -> has_rank (2 * sc_n c2 + 1) (map binsp (map parse gs2)) r2 ->
  code_eq c1 c2 = if Nat.eqb r1 r2 then Raise ValueError else Ret false.
Proof. exact eq_sizes. Qed.
Print Assumptions C09_different_sizes.

(** not equality of signed stabilizer groups in general: the same group gives False, different groups give True *)
Theorem C09_signed_group_refuted :
  exists c1 c2 c3, StabilizerCode 64 (Strs [str "+XX"; str "+ZZ"]) None None None = Ret c1 /\
    StabilizerCode 64 (Strs [str "+XX"; str "-YY"]) None None None = Ret c2 /\ StabilizerCode 64 (Strs [str "+XX"; str "+YY"]) None None None = Ret c3 /\
    code_eq c1 c2 = Ret false /\ code_eq c1 c3 = Ret true /\
    (forall h, generated 2 [signed false [PX;PX]; signed false [PZ;PZ]] h <-> generated 2 [signed false [PX;PX]; signed true [PY;PY]] h) /\
    ~ (forall h, generated 2 [signed false [PX;PX]; signed false [PZ;PZ]] h <-> generated 2 [signed false [PX;PX]; signed false [PY;PY]] h).
Proof. exact eq_refuted. Qed.
Print Assumptions C09_signed_group_refuted.

Example C09_nonvacuous : exists c1 c2, StabilizerCode 64 (Strs [str "XXXX"; str "ZZZZ"]) None None None = Ret c1 /\
   StabilizerCode 64 (Strs [str "ZZZZ"; str "XXXX"; str "XXXX"]) None None None = Ret c2 /\ code_eq c1 c2 = Ret true.
Proof. eexists _, _. split; [reflexivity|]. split; reflexivity. Qed.

(** ** C10 *)
(** the constructor accepts a list of strings exactly when [input_ok] holds (StabProofs2.v: nonempty list of valid
    Pauli strings on n qubits, positive distance, logicals supplied for both or none, at most n - rank of each,
    commuting with all generators, every logical Z anticommuting with exactly one logical X), and all generator
    strings have equal length *)
Theorem C10_constructor_accepts : forall w gs d Lz Lx, (1 <= w)%Z ->
  ((exists c, StabilizerCode w (Strs gs) d (optStrs Lz) (optStrs Lx) = Ret c) <->
   exists n l, gs = map printsp l /\ Forall (fun g => printsp g <> []) l /\
     (forall g h, In g gs -> In h gs -> length g = length h) /\ input_ok n l d Lz Lx).
Proof. exact ctor_accepts. Qed.
Print Assumptions C10_constructor_accepts.

(** the fields of the constructed object *)
Theorem C10_fields : forall w gs d Lz Lx c, (1 <= w)%Z -> StabilizerCode w (Strs gs) d (optStrs Lz) (optStrs Lx) = Ret c ->
  (forall g, In g gs -> length (snd (parse g)) = sc_n c /\ is_pauli_string g = true) /\
  (exists r, has_rank (2 * sc_n c + 1) (map binsp (map parse gs)) r /\ sc_k c = (Z.of_nat (sc_n c) - Z.of_nat r)%Z) /\
  (0 < sc_distance c)%Z /\ sc_distance c = match d with Some x => x | None => 1%Z end /\
  sc_gens c = map (fun g => bin (neg (fst (parse g))) (snd (parse g))) gs.
Proof. exact ctor_fields. Qed.
Print Assumptions C10_fields.

(** accepted generators need not commute, and k can become negative *)
Theorem C10_noncommuting_refuted : exists c, StabilizerCode 64 (Strs [str "X"; str "Z"]) None None None = Ret c /\
  sc_k c = (-1)%Z /\ ~ pcommute [PX] [PZ].
Proof. eexists. split; [reflexivity|]. split; [reflexivity|]. discriminate. Qed.
Print Assumptions C10_noncommuting_refuted.

(** the logical operators accepted need not be independent nor pair up: equal logical Zs, and a logical X without partner *)
Theorem C10_logicals_refuted : exists c, StabilizerCode 64 (Strs [str "III"]) None (Some (Strs [str "ZII"; str "ZII"])) (Some (Strs [str "XII"; str "IXI"])) = Ret c /\
  pcommute [PZ;PI;PI] [PI;PX;PI].
Proof. eexists. split; reflexivity. Qed.
Print Assumptions C10_logicals_refuted.

(** valid generators with different notations of the sign are rejected, and some malformed inputs escape as other exceptions *)
Theorem C10_rejections_refuted :
  StabilizerCode 64 (Strs [str "XX"; str "-ZZ"]) None None None = Raise InvalidStabilizerCodeError /\
  StabilizerCode 64 (Strs [str "+XX"; str "ZZZ"]) None None None = Raise ValueError /\
  StabilizerCode 64 (Strs [str "ZZ"]) None (Some (Strs [])) (Some (Strs [])) = Raise IndexError.
Proof. repeat split; reflexivity. Qed.
Print Assumptions C10_rejections_refuted.

Example C10_nonvacuous : exists c, StabilizerCode 8 (Strs [str "XXXX"; str "ZZZZ"]) (Some 2%Z)
   (Some (Strs [str "ZZII"; str "ZIZI"])) (Some (Strs [str "XIXI"; str "XXII"])) = Ret c /\ sc_k c = 2%Z.
Proof. eexists. split; reflexivity. Qed.
