(** * EvalModel: ft_stateprep/eval/estimate_logical_error_rate.py (lines 22-97): which code, which circuit and which settings are simulated.
    Making codes, synthesis, verification, loading and the simulation are parameters ([tools]; other models have them); argparse is modelled from the list of recognised
    options on (abbreviations, usage errors and the integer syntax are left out); the current directory of circuits is a predicate on (directory, file name). *)
From Coq Require Import List Arith Bool ZArith Ascii String.
From Verif Require Import PyModel.
From Verif Require Export TextModel SaveModel PlotModel RunFilesModel.
Import ListNotations.
Local Open Scope nat_scope.
Local Open Scope py_scope.

(** estimate_logical_error_rate.py 31-46: the options, in the order of the command line *)
Inductive option_arg := OPError (p : fl) | OZero | OPlus | ONErrors (n : Z) | OExactCirc | OHeuristicCirc | OExactVer | OHeuristicVer | ONaiveVer | ONoVer | ODistance (d : Z) | ONoParallel.
Record settings := mkS { s_p : option fl; s_zero : bool; s_n : Z; s_exact_circ : bool; s_exact_ver : bool; s_naive : bool; s_no_ver : bool; s_distance : Z; s_no_parallel : bool }.
(** lines 31-46, the defaults *)
Definition defaults : settings := mkS None true 500 false true false false 3 false.
(** lines 31-46: each option stores into its destination; two options share zero_state, exact_circ and exact_ver *)
Definition apply_option (s : settings) (o : option_arg) : settings :=
  match s with mkS p z n ec ev nv no d np =>
    match o with
    | OPError p' => mkS (Some p') z n ec ev nv no d np
    | OZero => mkS p true n ec ev nv no d np
    | OPlus => mkS p false n ec ev nv no d np
    | ONErrors n' => mkS p z n' ec ev nv no d np
    | OExactCirc => mkS p z n true ev nv no d np
    | OHeuristicCirc => mkS p z n false ev nv no d np
    | OExactVer => mkS p z n ec true nv no d np
    | OHeuristicVer => mkS p z n ec false nv no d np
    | ONaiveVer => mkS p z n ec ev true no d np
    | ONoVer => mkS p z n ec ev nv true d np
    | ODistance d' => mkS p z n ec ev nv no d' np
    | ONoParallel => mkS p z n ec ev nv no d true
    end
  end.
(** line 48 *)
Definition parse_args (os : list option_arg) : settings := fold_left apply_option os defaults.

(** sub in s *)
Fixpoint starts (sub s : text) : bool := match sub, s with [], _ => true | c :: sub', d :: s' => Ascii.eqb c d && starts sub' s' | _, [] => false end.
Fixpoint occurs (sub s : text) : bool := starts sub s || match s with [] => false | _ :: s' => occurs sub s' end.
(** line 24 *)
Definition available_codes : list text := [tx "steane"; tx "tetrahedral"; tx "shor"; tx "surface"; tx "cc_4_8_8"; tx "cc_6_6_6"; tx "hamming"; tx "carbon"].
(** the calls of lines 52, 56, 59, 61 *)
Inductive code_call := FromName (name : text) (d : option Z) | SquareOctagonCode (d : Z) | HexagonalCode (d : Z).
(** lines 49-63: the call that makes the code, and the directory; the ValueError of line 63 *)
Definition choose_code (name : text) (distance : Z) : py (code_call * text) :=
  if occurs (tx "surface") name then Ret (FromName (tx "surface") (Some distance), tx "rotated_surface_d" ++ showInt distance)
  else if occurs (tx "cc_4_8_8") name then Ret (SquareOctagonCode 5, name)
  else if occurs (tx "cc_6_6_6") name then Ret (HexagonalCode 5, name)
  else if existsb (text_eqb name) available_codes then Ret (FromName name None, name)
  else Raise ValueError.
(** lines 66-71 *)
Definition circ_file (s : settings) : text :=
  let sp := if s_exact_circ s then tx "opt" else tx "heuristic" in
  let ver := if negb (s_naive s) then (if s_exact_ver s then tx "opt" else tx "heuristic") else tx "naive" in
  (if s_zero s then tx "zero" else tx "plus") ++ tx "_" ++ (if s_no_ver s then tx "non_ft" else tx "ft") ++ tx "_" ++ sp ++ tx "_" ++ ver ++ tx ".qasm".

(** what the script calls: CSSCode.from_code_name and the colour codes; prep circuits (None: no circuit found); verification circuits; reading a file; the simulation *)
Record tools (C P Q R : Type) := mkTools {
  make_code : code_call -> py C;
  prep_opt : C -> bool -> py (option P);
  prep_heuristic : C -> bool -> py (option P);
  ver_naive : P -> py Q;
  ver_opt : P -> py Q;
  ver_heuristic : P -> py Q;
  load : text -> text -> py Q;
  simulate : Q -> C -> option fl -> bool -> bool -> Z -> py R }.
Arguments make_code {C P Q R}. Arguments prep_opt {C P Q R}. Arguments prep_heuristic {C P Q R}. Arguments ver_naive {C P Q R}. Arguments ver_opt {C P Q R}.
Arguments ver_heuristic {C P Q R}. Arguments load {C P Q R}. Arguments simulate {C P Q R}. Arguments mkTools {C P Q R}.

(** lines 75-88 *)
Definition build {C P Q R} (T : tools C P Q R) (c : C) (s : settings) : py Q :=
  do circ <- (if s_exact_circ s then prep_opt T c (s_zero s) else prep_heuristic T c (s_zero s));
  match circ with
  | None => Raise AssertionError
  | Some circ => if s_naive s then ver_naive T circ else if s_exact_ver s then ver_opt T circ else ver_heuristic T circ
  end.
(** lines 48-97; the result is what is printed *)
Definition main {C P Q R} (T : tools C P Q R) (there : text -> text -> bool) (name : text) (os : list option_arg) : py R :=
  let s := parse_args os in
  do cd <- choose_code name (s_distance s);
  do c <- make_code T (fst cd);
  do qc <- (if there (snd cd) (circ_file s) then load T (snd cd) (circ_file s) else build T c s);
  simulate T qc c (s_p s) (s_zero s) (negb (s_no_parallel s)) (s_n s).

(** the .qasm files of ft_stateprep/eval/circuits at the pinned commit, without the ending *)
Definition five : list text := [tx "ft_heuristic_heuristic"; tx "ft_heuristic_opt"; tx "ft_opt_opt"; tx "non_ft_heuristic"; tx "non_ft_opt"].
Definition both_states (l : list text) : list text := map (fun t => tx "plus_" ++ t) l ++ map (fun t => tx "zero_" ++ t) l.
Definition zero_state (l : list text) : list text := map (fun t => tx "zero_" ++ t) l.
Definition shipped : list (text * list text) :=
  [(tx "carbon", zero_state five);
   (tx "cc_4_8_8", zero_state [tx "ft_heuristic_opt"; tx "non_ft_heuristic"]);
   (tx "cc_6_6_6", zero_state [tx "ft_heuristic_opt"; tx "non_ft_heuristic"]);
   (tx "hamming", both_states five);
   (tx "rotated_surface_d3", both_states five);
   (tx "rotated_surface_d5", zero_state [tx "ft_heuristic_naive"; tx "ft_heuristic_opt"; tx "non_ft_heuristic"]);
   (tx "shor", both_states five);
   (tx "steane", both_states five);
   (tx "tetrahedral", map (fun t => tx "plus_" ++ t) [tx "ft_heuristic_heuristic"; tx "ft_heuristic_opt"; tx "non_ft_heuristic"] ++ zero_state five)].
Definition shipped_there (dir file : text) : bool := existsb (fun x => text_eqb dir (fst x) && existsb (fun f => text_eqb file (f ++ tx ".qasm")) (snd x)) shipped.
