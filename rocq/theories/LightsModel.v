(** * LightsModel: model of the LightsOut decoder, /repo/src/mqt/qecc/cc_decoder/decoder.py.

    z3 expressions are modelled by their syntax and evaluated with [zeval]; [simplify] (an equivalence-preserving
    rewriting of z3) is modelled as the identity.  The variable names "switch_{i}" and "helper_{light}_{i}" are
    modelled by the constructors [Switch i] and [Helper light i] (the naming is injective).  The optimizer itself is
    a parameter [solver]; [solver_ok] is the contract of z3.Optimize that the proofs use. *)
From Coq Require Export List Arith Bool Lia PeanoNat.
From Verif Require Export Lin PyModel ListX.
Export ListNotations.

Inductive zvar := Switch (i : nat) | Helper (light i : nat).
Inductive zexp := Zv (v : zvar) | Zc (b : bool) | Zxor (a b : zexp) | Zeq (a b : zexp) | Znot (a : zexp).
Fixpoint zeval (m : zvar -> bool) (e : zexp) : bool :=
  match e with
  | Zv v => m v | Zc b => b | Zxor a b => xorb (zeval m a) (zeval m b)
  | Zeq a b => eqb (zeval m a) (zeval m b) | Znot a => negb (zeval m a)
  end.

(** z3.Optimize: hard and soft constraints plus the stack of saved contexts (push / pop). *)
Record optimizer := mkOpt { o_hard : list zexp; o_soft : list zexp; o_stack : list (list zexp * list zexp) }.
Definition o_empty := mkOpt [] [] [].
Definition o_add (e : zexp) (o : optimizer) := mkOpt (o_hard o ++ [e]) (o_soft o) (o_stack o).
Definition o_add_soft (e : zexp) (o : optimizer) := mkOpt (o_hard o) (o_soft o ++ [e]) (o_stack o).
Definition o_push (o : optimizer) := mkOpt (o_hard o) (o_soft o) ((o_hard o, o_soft o) :: o_stack o).
Definition o_pop (o : optimizer) :=
  match o_stack o with [] => o | (h, s) :: st => mkOpt h s st end.

(** a z3 model maps some variables; [model[var]] is None for the others, and None is falsy *)
Definition zmodel := zvar -> option bool.
Definition truthy (m : zmodel) (v : zvar) : bool := match m v with Some b => b | None => false end.
(** check() + model(): [Some m] for "sat", [None] for any other answer *)
Definition solver := optimizer -> option zmodel.

(** decoder.py 26-33: the LightsOut dataclass; dictionaries are association lists in insertion order *)
Record lights_out := mkLO {
  l2s : list (nat * list nat); s2l : list (nat * list nat);
  switch_vars : option (list zvar); helper_vars : list (nat * list zvar); opt : optimizer }.
Definition LightsOut (a b : list (nat * list nat)) : lights_out := mkLO a b None [] o_empty.

Definition set_opt (o : optimizer) (s : lights_out) := mkLO (l2s s) (s2l s) (switch_vars s) (helper_vars s) o.
Definition set_sw (v : list zvar) (s : lights_out) := mkLO (l2s s) (s2l s) (Some v) (helper_vars s) (opt s).
Definition set_hv (h : list (nat * list zvar)) (s : lights_out) := mkLO (l2s s) (s2l s) (switch_vars s) h (opt s).

(** dict and list lookups *)
Fixpoint dfind {A} (k : nat) (d : list (nat * A)) : option A :=
  match d with [] => None | (k', x) :: d' => if k =? k' then Some x else dfind k d' end.
Definition dget {A} (d : list (nat * A)) (k : nat) : py A := match dfind k d with Some x => Ret x | None => Raise KeyError end.
Definition lget {A} (l : list A) (i : nat) : py A := match nth_error l i with Some x => Ret x | None => Raise IndexError end.
Definition llast {A} (l : list A) : py A := match rev l with x :: _ => Ret x | [] => Raise IndexError end.

(** methods: state in, state and outcome out (an exception keeps the mutations made before it) *)
Definition meth A := lights_out -> lights_out * py A.
Definition mret {A} (a : A) : meth A := fun s => (s, Ret a).
Definition mlift {A} (p : py A) : meth A := fun s => (s, p).
Definition mbind {A B} (m : meth A) (f : A -> meth B) : meth B :=
  fun s => match m s with (s', Ret a) => f a s' | (s', Raise e) => (s', Raise e) end.
Declare Scope meth_scope.
Notation "'let!' x := a 'in' b" := (mbind a (fun x => b)) (at level 200, x name, a at level 100, b at level 200) : meth_scope.
Open Scope meth_scope.
Definition mget : meth lights_out := fun s => (s, Ret s).
Definition mopt (f : optimizer -> optimizer) : meth unit := fun s => (set_opt (f (opt s)) s, Ret tt).
Fixpoint mfor {A} (l : list A) (f : A -> meth unit) : meth unit :=
  match l with [] => mret tt | a :: l' => let! _ := f a in mfor l' f end.
(** [assert self.switch_vars is not None] *)
Definition get_switch_vars : meth (list zvar) :=
  fun s => (s, match switch_vars s with Some v => Ret v | None => Raise AssertionError end).

(** decoder.py 35-48 *)
Definition preconstruct_parity_constraint (light : nat) (indices : list nat) : meth unit :=
  let! self := mget in
  let! hv := mlift (dget (helper_vars self) light) in
  let! sv := get_switch_vars in
  let! _ := mfor (seq 1 (length indices - 2)) (fun i =>
      let! idx := mlift (lget indices i) in
      let! s := mlift (lget sv idx) in
      let! h := mlift (lget hv i) in
      let! h' := mlift (lget hv (i - 1)) in
      mopt (o_add (Zeq (Zxor (Zv s) (Zv h)) (Zv h')))) in
  let! idx := mlift (llast indices) in
  let! s := mlift (lget sv idx) in
  let! h := mlift (llast hv) in
  mopt (o_add (Zeq (Zv s) (Zv h))).

(** decoder.py 50-58 *)
Definition complete_parity_constraint (light : nat) (indices : list nat) (val : bool) : meth unit :=
  let! self := mget in
  let! hv := mlift (dget (helper_vars self) light) in
  let! sv := get_switch_vars in
  let! idx := mlift (lget indices 0) in
  let! s := mlift (lget sv idx) in
  let! h := mlift (lget hv 0) in
  mopt (o_add (Zeq (Zxor (Zv s) (Zv h)) (Zc val))).

(** decoder.py 60-75 *)
Definition preconstruct_z3_instance : meth unit :=
  let! self := mget in
  let! _ := (match switch_vars self with
             | None => fun s => (set_sw (map Switch (seq 0 (length (s2l self)))) s, Ret tt)
             | Some _ => mret tt end) in
  let! _ := mfor (l2s self) (fun '(light, switches) =>
      let! self := mget in
      let! _ := (match dfind light (helper_vars self) with
                 | None => fun s => (set_hv (helper_vars s ++ [(light, map (Helper light) (seq 0 (length switches - 1)))]) s, Ret tt)
                 | Some _ => mret tt end) in
      preconstruct_parity_constraint light switches) in
  let! sv := get_switch_vars in
  mfor sv (fun s => mopt (o_add_soft (Znot (Zv s)))).

(** decoder.py 83-84: flip the lights controlled by a switch (the caller's list is modified in place) *)
Fixpoint flip_lights (ls : list nat) (lights : list bool) : py (list bool) :=
  match ls with
  | [] => Ret lights
  | l :: ls' => match nth_error lights l with
                | None => Raise IndexError
                | Some b => flip_lights ls' (set_nth l (negb b) lights)
                end
  end.
Fixpoint validate_loop (m : zmodel) (s2l : list (nat * list nat)) (i : nat) (vars : list zvar) (lights : list bool) : py (list bool) :=
  match vars with
  | [] => Ret lights
  | v :: vs => if truthy m v
      then match dget s2l i with
           | Raise e => Raise e
           | Ret ls => match flip_lights ls lights with
                       | Raise e => Raise e
                       | Ret lights' => validate_loop m s2l (S i) vs lights'
                       end
           end
      else validate_loop m s2l (S i) vs lights
  end.
(** decoder.py 77-86; returns the Boolean together with the caller's list after the call *)
Definition validate_model (m : zmodel) (lights : list bool) : meth (bool * list bool) :=
  let! sv := get_switch_vars in
  let! self := mget in
  let! lights' := mlift (validate_loop m (s2l self) 0 sv lights) in
  mret (forallb negb lights', lights').

(** decoder.py 88-91 *)
Definition count_switches (m : zmodel) : meth nat :=
  let! sv := get_switch_vars in
  mret (length (filter (truthy m) sv)).

(** decoder.py 93-134 with solver_path = "z3" (the other branch only times an external program and returns []);
    the timings are not modelled.  Result: the switch vector and the caller's lights list after the call.
    An exception leaves the pushed optimizer context in place, as in the code. *)
Definition solve (sv : solver) (lights : list bool) : meth (list nat * list bool) :=
  let! _ := mopt o_push in
  let! _ := mfor (combine (seq 0 (length lights)) lights) (fun '(light, val) =>
      let! self := mget in
      let! idx := mlift (dget (l2s self) light) in
      complete_parity_constraint light idx val) in
  let! self := mget in
  match sv (opt self) with
  | None => mlift (Raise AssertionError)
  | Some m =>
      let! r := validate_model m lights in
      if fst r
      then (let! vars := get_switch_vars in
            let! _ := mopt o_pop in
            mret (map (fun v => if truthy m v then 1 else 0) vars, snd r))
      else mlift (Raise AssertionError)
  end.

(** ** the contract of the optimizer *)
Definition zsat (m : zvar -> bool) (es : list zexp) : Prop := forall e, In e es -> zeval m e = true.
Definition nsoft (m : zvar -> bool) (es : list zexp) : nat := length (filter (zeval m) es).
(** "sat" comes with a model of the hard constraints that satisfies as many soft constraints (of weight 1) as any
    model does; any other answer only if there is no model *)
Definition solver_ok (sv : solver) : Prop := forall o,
  match sv o with
  | Some m => zsat (truthy m) (o_hard o) /\ forall m', zsat m' (o_hard o) -> nsoft m' (o_soft o) <= nsoft (truthy m) (o_soft o)
  | None => forall m', ~ zsat m' (o_hard o)
  end.

(** an instance of the contract: exhaustive search over the variables that occur *)
Fixpoint zvars (e : zexp) : list zvar :=
  match e with Zv v => [v] | Zc _ => [] | Zxor a b | Zeq a b => zvars a ++ zvars b | Znot a => zvars a end.
Definition zvar_eqb (a b : zvar) : bool :=
  match a, b with
  | Switch i, Switch j => i =? j | Helper l i, Helper k j => (l =? k) && (i =? j) | _, _ => false end.
Fixpoint assign (vs : list zvar) (bits : list bool) (v : zvar) : bool :=
  match vs, bits with
  | w :: vs', b :: bits' => if zvar_eqb v w then b else assign vs' bits' v
  | _, _ => false
  end.
Fixpoint best {A} (f : A -> nat) (l : list A) : option A :=
  match l with
  | [] => None
  | a :: l' => match best f l' with Some b => if f a <=? f b then Some b else Some a | None => Some a end
  end.
Definition zvar_dec (a b : zvar) : {a = b} + {a <> b}.
Proof. decide equality; apply Nat.eq_dec. Defined.
Definition search_solver : solver := fun o =>
  let vs := nodup zvar_dec (flat_map zvars (o_hard o ++ o_soft o)) in
  match best (fun bits => nsoft (assign vs bits) (o_soft o))
             (filter (fun bits => forallb (zeval (assign vs bits)) (o_hard o)) (all_vecs (length vs))) with
  | Some bits => Some (fun v => Some (assign vs bits v))
  | None => None
  end.

(** ** specification *)
(** parity of the number of pressed switches in a list *)
Definition parity (x : nat -> bool) (is : list nat) : bool := fold_right (fun i b => xorb (x i) b) false is.
(** pressing exactly the switches of [x] turns off every light of [lights]: each light that is on is controlled by
    an odd number of pressed switches, each light that is off by an even number *)
Definition explains (l2s : list (nat * list nat)) (lights : list bool) (x : nat -> bool) : Prop :=
  forall j, j < length lights -> exists sws, dfind j l2s = Some sws /\ parity x sws = nth j lights false.
(** number of pressed switches among 0..n-1 *)
Definition pressed (n : nat) (x : nat -> bool) : nat := length (filter x (seq 0 n)).
(** the two dictionaries describe one bipartite graph between the lights 0..L-1 and the switches 0..S-1, and every
    light has at least two switches *)
Definition graph_ok (a b : list (nat * list nat)) : Prop :=
  NoDup (map fst a) /\ NoDup (map fst b) /\
  (forall j, In j (map fst a) <-> j < length a) /\ (forall i, In i (map fst b) <-> i < length b) /\
  (forall j sws, In (j, sws) a -> 2 <= length sws /\ forall i, In i sws -> i < length b) /\
  (forall i ls, In (i, ls) b -> forall j, In j ls -> j < length a) /\
  (forall j sws i ls, In (j, sws) a -> In (i, ls) b -> count_occ Nat.eq_dec sws i = count_occ Nat.eq_dec ls j).
