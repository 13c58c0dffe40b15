(** * PyModel: outcome of a Python call in the models of the Python part of the repository. *)
Inductive pyexn := IndexError | KeyError | ValueError | TypeError | AssertionError | NotImplementedErr
  | InvalidStabilizerCodeError | InvalidCSSCodeError | NameError | RuntimeError | AttributeError | ZeroDivisionError | UnboundLocalError | CircuitError.
Inductive py (A : Type) := Ret (a : A) | Raise (e : pyexn).
Arguments Ret {A} _.
Arguments Raise {A} _.
Definition pbind {A B} (r : py A) (f : A -> py B) : py B :=
  match r with Ret a => f a | Raise e => Raise e end.
Declare Scope py_scope.
Notation "'do' x <- a ; b" := (pbind a (fun x => b)) (at level 200, x name, a at level 100, b at level 200, right associativity) : py_scope.
