(** * PropEvalCode: property C81 with CSSCode.from_code_name of property C16 as the procedure that makes the named codes *)
From Coq Require Import List Arith Bool ZArith Ascii String Lia.
From Verif Require Import PyModel CssProofs NamedProofs PropNamed EvalModel PropEval.
Import ListNotations.
Local Open Scope nat_scope.

(** Every accepted name that is not a colour code makes the documented code, with its qubits and distances; the surface code exists for the distances 3 and 5. *)
Theorem C81_documented : forall L P Q R (T : tools css P Q R), (forall name o, make_code T (FromName name o) = from_code_name L name o) ->
  forall name d nm o dir, code_of name d (FromName nm o) dir -> (contains (tx "surface") name -> d = 3%Z \/ d = 5%Z) ->
  exists key n k dx dz c, In (key, (n, k, dx, dz)) doc_table /\ key = (if occurs (tx "surface") name then if (d =? 3)%Z then tx "surface_3" else tx "surface_5" else name) /\
    make_code T (FromName nm o) = Ret c /\ sc_n (css_stab c) = n /\ sc_k (css_stab c) = k /\ css_xdist c = Z.of_nat dx /\ css_zdist c = Z.of_nat dz /\
    min_weight (fun v => in_kernel n (nd_rows (css_Hz c)) v /\ ~ span n (nd_rows (css_Hx c)) v) dx /\
    min_weight (fun v => in_kernel n (nd_rows (css_Hx c)) v /\ ~ span n (nd_rows (css_Hz c)) v) dz.
Proof. intros L P Q R T HT name d nm o dir H Hd.
  assert (G : forall key n k dx dz, In (key, (n, k, dx, dz)) doc_table -> selects nm o key -> key = (if occurs (tx "surface") name then if (d =? 3)%Z then tx "surface_3" else tx "surface_5" else name) ->
     exists key n k dx dz c, In (key, (n, k, dx, dz)) doc_table /\ key = (if occurs (tx "surface") name then if (d =? 3)%Z then tx "surface_3" else tx "surface_5" else name) /\
    make_code T (FromName nm o) = Ret c /\ sc_n (css_stab c) = n /\ sc_k (css_stab c) = k /\ css_xdist c = Z.of_nat dx /\ css_zdist c = Z.of_nat dz /\
    min_weight (fun v => in_kernel n (nd_rows (css_Hz c)) v /\ ~ span n (nd_rows (css_Hx c)) v) dx /\
    min_weight (fun v => in_kernel n (nd_rows (css_Hx c)) v /\ ~ span n (nd_rows (css_Hz c)) v) dz).
  { intros key n k dx dz I S E. destruct (C16_named_codes L nm o key n k dx dz I S) as (c & Ec & Hn & Hk & Hx & Hz & _ & _ & Mx & Mz).
    exists key, n, k, dx, dz, c. rewrite HT. auto 10. }
  destruct H as [(N & E & _)|(N & _ & [(_ & E)|[(_ & _ & E)|(I & E)]])]; try discriminate E.
  - injection E as -> ->. pose proof (proj2 (occurs_spec _ _) N) as Eo. destruct (Hd N) as [->| ->].
    + eapply (G (tx "surface_3")); [unfold doc_table; cbn [In]; auto 20| |rewrite Eo; reflexivity]. right. split; [reflexivity|]. left. auto.
    + eapply (G (tx "surface_5")); [unfold doc_table; cbn [In]; auto 20| |rewrite Eo; reflexivity]. right. split; [reflexivity|]. right. auto.
  - injection E as -> ->. pose proof (proj2 (occurs_false _ _) N) as Eo. cbn [In] in I.
    destruct I as [<-|[<-|[<-|[<-|[<-|[]]]]]]; (match goal with N : ~ contains _ ?x |- _ => eapply (G x) end; [unfold doc_table; cbn [In]; auto 20|left; split; [discriminate|reflexivity]|rewrite Eo; reflexivity]). Qed.
Print Assumptions C81_documented.
(** The surface code with any other distance is refused by from_code_name, and nothing is simulated. *)
Theorem C81_surface_distance : forall L P Q R (T : tools css P Q R) there name os, (forall name o, make_code T (FromName name o) = from_code_name L name o) ->
  contains (tx "surface") name -> s_distance (parse_args os) <> 3%Z -> s_distance (parse_args os) <> 5%Z -> main T there name os = Raise InvalidCSSCodeError.
Proof. intros L P Q R T there name os HT H N3 N5. set (d := s_distance (parse_args os)) in *.
  apply (proj1 (C81_failures css P Q R T there name os (FromName (tx "surface") (Some d)) _ (or_introl (conj H (conj eq_refl eq_refl))))).
  rewrite HT. apply C16_unknown_rejected. intros key _ [(X & _)|(_ & [([X|X] & _)|(X & _)])]; [apply X; reflexivity|discriminate X|injection X as X; auto|injection X as X; auto]. Qed.
Print Assumptions C81_surface_distance.
Example C81_surface_distance_case : contains (tx "surface") (tx "surface") /\ s_distance (parse_args [ODistance 7]) = 7%Z /\ s_distance (parse_args []) = 3%Z.
Proof. split; [exists [], []; reflexivity|split; reflexivity]. Qed.
