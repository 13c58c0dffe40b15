(** * Z3Model: the fragment of z3 used by src/mqt/qecc/ft_stateprep/state_prep.py, and its symbolic vector helpers.
    Boolean variables are elements of V, bit-vector variables elements of W.  The entries of the object arrays are either
    Python booleans or z3 expressions, as in the isinstance tests of the code. *)
From Verif Require Export PrepModel.
Local Open Scope nat_scope.

Section Expr.
Context {V W : Type}.
Inductive expr :=
| EVar (v : V) | ELit (b : bool) | ENot (e : expr) | EXor (a b : expr) | EIff (a b : expr) | EImp (a b : expr)
| EAnd (l : list expr) | EOr (l : list expr)
| EPbEq (l : list expr) (k : nat) | EPbLe (l : list expr) (k : nat) | EPbGe (l : list expr) (k : nat)
| EBvEq (w : W) (k : nat) | EBvNe (w w' : W) | EBvLt (w : W) (k : nat).

Record asg := mkAsg { a_bool : V -> bool; a_bv : W -> nat }.
Definition count (f : expr -> bool) (l : list expr) : nat := length (filter f l).
Fixpoint eval (a : asg) (e : expr) : bool :=
  match e with
  | EVar v => a_bool a v | ELit b => b | ENot e => negb (eval a e) | EXor x y => xorb (eval a x) (eval a y)
  | EIff x y => Bool.eqb (eval a x) (eval a y) | EImp x y => implb (eval a x) (eval a y)
  | EAnd l => forallb (eval a) l | EOr l => existsb (eval a) l
  | EPbEq l k => length (filter (eval a) l) =? k | EPbLe l k => length (filter (eval a) l) <=? k
  | EPbGe l k => k <=? length (filter (eval a) l)
  | EBvEq w k => a_bv a w =? k | EBvNe w w' => negb (a_bv a w =? a_bv a w') | EBvLt w k => a_bv a w <? k
  end.

(** entries of object arrays *)
Inductive sym := Con (b : bool) | Sym (e : expr).
Definition toe (s : sym) : expr := match s with Con b => ELit b | Sym e => e end.
Definition seval (a : asg) (s : sym) : bool := eval a (toe s).
Definition svec := list sym.

(** state_prep.py 1066-1068 *)
Definition symbolic_scalar_mult (v : vec) (a : sym) : svec := map (fun s : bool => if s then a else Con false) v.
(** state_prep.py 1071-1097 *)
Definition sym_add (x y : sym) : sym :=
  match x, y with
  | Con true, Sym e => Sym (ENot e) | Con true, Con b => Con (negb b) | Con false, _ => y
  | Sym e, Con true => Sym (ENot e) | Sym e, Con false => Sym e | Sym a, Sym b => Sym (EXor a b)
  end.
Definition symbolic_vector_add (v1 v2 : svec) : svec :=
  map (fun i => sym_add (nth i v1 (Con false)) (nth i v2 (Con false))) (seq 0 (length v1)).
(** state_prep.py 1100-1102 *)
Definition odd_overlap (v_sym : svec) (v_con : vec) : expr :=
  EPbEq (map (fun i => toe (nth i v_sym (Con false))) (filter (fun i => nth i v_con false) (seq 0 (length v_con)))) 1.
(** state_prep.py 1105-1127 *)
Definition sym_eq (x y : sym) : expr :=
  match x, y with
  | Con true, _ => toe y | Con false, Sym e => ENot e | Con false, Con b => ELit (negb b)
  | Sym e, Con true => e | Sym e, Con false => ENot e | Sym a, Sym b => EIff a b
  end.
Definition symbolic_vector_eq (v1 v2 : svec) : expr :=
  EAnd (map (fun i => sym_eq (nth i v1 (Con false)) (nth i v2 (Con false))) (seq 0 (length v1))).
(** state_prep.py 984-990 (measurement and generators are nonempty and equally long where it is called) *)
Definition vars_to_stab (measurement : list sym) (generators : mat) : svec :=
  fold_left (fun acc i => symbolic_vector_add acc (symbolic_scalar_mult (nth (S i) generators []) (nth (S i) measurement (Con false))))
    (seq 0 (length measurement - 1)) (symbolic_scalar_mult (nth 0 generators []) (nth 0 measurement (Con false))).

(** The solver: a model of the asserted formulas, or None for unsat.  A model may leave variables unassigned. *)
Record z3model := mkZm { zm_bool : V -> option bool; zm_bv : W -> option nat }.
(** the completion the code uses: bool(None) is False *)
Definition completion (m : z3model) : asg :=
  mkAsg (fun v => match zm_bool m v with Some b => b | None => false end) (fun w => match zm_bv m w with Some k => k | None => 0 end).
End Expr.
Arguments expr : clear implicits.
Arguments sym : clear implicits.
Arguments svec : clear implicits.
Arguments asg : clear implicits.
Arguments z3model : clear implicits.

(** ** contracts *)
Section Occurs.
Context {V W : Type}.
Fixpoint occurs (v : V) (e : expr V W) : Prop :=
  match e with
  | EVar u => u = v | ELit _ => False | ENot e => occurs v e
  | EXor a b | EIff a b | EImp a b => occurs v a \/ occurs v b
  | EAnd l | EOr l | EPbEq l _ | EPbLe l _ | EPbGe l _ =>
      (fix go (l : list (expr V W)) : Prop := match l with [] => False | e :: l' => occurs v e \/ go l' end) l
  | EBvEq _ _ | EBvNe _ _ | EBvLt _ _ => False
  end.
(** z3.Solver: the answer to one query is right: sat answers come with a model (bit vectors below [width], only variables
    of the query are assigned), unsat answers are given only when no assignment satisfies all formulas. *)
Definition answer_ok (width : nat) (fs : list (expr V W)) (ans : option (z3model V W)) : Prop :=
  match ans with
  | Some m => (forall f, In f fs -> eval (completion m) f = true) /\ (forall w, a_bv (completion m) w < width) /\
              (forall v, zm_bool m v <> None -> exists f, In f fs /\ occurs v f)
  | None => forall a, (forall w, a_bv a w < width) -> exists f, In f fs /\ eval a f = false
  end.
(** z3.Optimize: a model with the fewest true objectives *)
Definition optimum_ok (width : nat) (fs objs : list (expr V W)) (m : z3model V W) : Prop :=
  answer_ok width fs (Some m) /\
  forall a, (forall w, a_bv a w < width) -> (forall f, In f fs -> eval a f = true) ->
    count (eval (completion m)) objs <= count (eval a) objs.
(** The solvers as functions of the query, right on every query.  [width] bounds the bit-vector values (2^bits). *)
Definition solver_ok (width : nat) (solver : list (expr V W) -> option (z3model V W)) : Prop := forall fs, answer_ok width fs (solver fs).
Definition optimizer_ok (width : nat) (opt : list (expr V W) -> list (expr V W) -> z3model V W) : Prop :=
  forall fs objs, (forall v o, In o objs -> occurs v o -> exists f, In f fs /\ occurs v f) ->
    (exists a, (forall w, a_bv a w < width) /\ forall f, In f fs -> eval a f = true) -> optimum_ok width fs objs (opt fs objs).
End Occurs.
