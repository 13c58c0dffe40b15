(** * RunFilesModel: the result files of the colour code decoder (src/mqt/qecc/cc_decoder/decoder.py run, comparison/tn_decoder.py run, cli.py cli, run.sh)
    and generate_plots_comp (plots.py).  The simulation is a parameter (its samples are random; CcSimModel has it); a directory is known by the text of its path
    (two spellings of one path count as two); failures of the operating system are left out.  Doubles as in PlotModel. *)
From Coq Require Import List Arith Bool ZArith Ascii String.
From Verif Require Import PyModel.
From Verif Require Export TextModel SaveModel PlotModel.
Import ListNotations.
Local Open Scope nat_scope.
Local Open Scope py_scope.

(** ** decoder.py *)
Notation tx := list_ascii_of_string.
(** codes/color_code.py 16-20 *)
Inductive lattice := Hexagon | SquareOctagon.
Definition lattice_value (l : lattice) : text := match l with Hexagon => tx "hexagon" | SquareOctagon => tx "square_octagon" end.
(** cc_decoder/__init__.py 9-16: the comparison with members of the enumeration; making the code itself belongs to the simulation here *)
Definition lattice_from_string (s : text) : py lattice :=
  if text_eqb s (lattice_value Hexagon) then Ret Hexagon else if text_eqb s (lattice_value SquareOctagon) then Ret SquareOctagon else Raise ValueError.
(** an enumeration member in an f-string: its value before Python 3.12, from then on the name of the member *)
Definition lattice_text (py312 : bool) (l : lattice) : text :=
  if py312 then match l with Hexagon => tx "LatticeType.HEXAGON" | SquareOctagon => tx "LatticeType.SQUARE_OCTAGON" end else lattice_value l.
(** the number 1 as a double *)
Definition one : Z := (2 ^ 1074)%Z.
(** round(p, 4) for a double 0 <= p <= 1, as a multiple of 1/10000: correctly rounded, ties to even *)
Definition round4 (p : fl) : Z :=
  let q := (p * 10000 / one)%Z in let r := ((p * 10000) mod one)%Z in
  if (2 * r <? one)%Z then q else if (2 * r =? one)%Z then (if Z.even q then q else q + 1)%Z else (q + 1)%Z.
(** repr of the double nearest to k/10000, 0 <= k <= 10000: up to four decimals, without zeros at the end but at least one *)
Definition digit (z : Z) : ascii := digitOf (Z.to_nat (z mod 10)).
Fixpoint dropz (t : text) : text := match t with c :: t' => if Ascii.eqb c "0" && (0 <? length t') then dropz t' else t | [] => [] end.
Definition show4 (k : Z) : text :=
  if (k =? 10000)%Z then tx "1.0" else tx "0." ++ rev (dropz [digit k; digit (k / 10); digit (k / 100); digit (k / 1000)]).
(** s.split("/")[-1] *)
Fixpoint basename_from (acc s : text) : text := match s with [] => acc | c :: s' => if Ascii.eqb c "/" then basename_from [] s' else basename_from (acc ++ [c]) s' end.
Definition basename (s : text) : text := basename_from [] s.

Record args := mkArgs { a_lattice : text; a_distance : Z; a_rate : fl; a_sims : Z; a_dir : text; a_solver : text }.
(** decoder.py 204; the ./ in front is removed by path / filename *)
Definition filename (py312 : bool) (l : lattice) (a : args) : text :=
  tx "code=" ++ lattice_text py312 l ++ tx ",distance=" ++ showInt (a_distance a) ++ tx ",p=" ++ show4 (round4 (a_rate a)) ++ tx ",solver=" ++ basename (a_solver a) ++ tx ".json".
(** directories and their files *)
Definition disk (D : Type) := text -> text -> option D.
Definition write {D} (dir name : text) (d : D) (k : disk D) : disk D := fun dir' name' => if text_eqb dir' dir && text_eqb name' name then Some d else k dir' name'.
(** what code_from_string and simulate_error_rate give in one particular run, decoder.py 201-202 *)
Definition outcome (D : Type) := lattice -> py D.
(** decoder.py 192-208 *)
Definition run {D} (py312 : bool) (a : args) (o : outcome D) (k : disk D) : disk D * py unit :=
  match lattice_from_string (a_lattice a) with
  | Raise e => (k, Raise e)
  | Ret l => match o l with
             | Raise e => (k, Raise e)
             | Ret d => (write (a_dir a) (filename py312 l a) d k, Ret tt)
             end
  end.
(** comparison/tn_decoder.py 14-34; the outcome is that of Color666Code and app.run *)
Definition tn_filename (a : args) : text := tx "distance=" ++ showInt (a_distance a) ++ tx ",p=" ++ show4 (round4 (a_rate a)) ++ tx ".json".
Definition tn_run_file {D} (a : args) (o : py D) (k : disk D) : disk D * py unit :=
  match o with Raise e => (k, Raise e) | Ret d => (write (a_dir a) (tn_filename a) d k, Ret tt) end.
(** cli.py 47-62, after the arguments are parsed *)
Definition cli {D} (py312 : bool) (decoder : text) (a : args) (o : outcome D) (otn : py D) (k : disk D) : disk D * py unit :=
  if text_eqb decoder (tx "maxsat") then run py312 a o k
  else if text_eqb decoder (tx "tn") then tn_run_file a otn k
  else (k, Raise ValueError).
(** a sequence of runs (run.sh starts the command once for every distance and error rate) *)
Definition runs {D} (py312 : bool) (l : list (args * outcome D)) (k : disk D) : disk D := fold_left (fun k ao => fst (run py312 (fst ao) (snd ao) k)) l k.

(** ** plots.py 266-352, generate_plots_comp: what is drawn in the two panels, with its colour (a place in the list of ten) *)
Inductive ccmd := Rates (x y : list fl) (solver : text) (d : Z) (colour : nat) | Distances (x : list Z) (y : list fl) (p : fl) (z3 : bool) (colour : nat).
(** a result file: distance, p, avg_total_time *)
Definition cres := (Z * (fl * fl))%type.
(** cols[idx] *)
Definition cols_at (idx : nat) : py nat := if idx <? 10 then Ret idx else Raise IndexError.
(** plots.py 297-305 *)
Definition c_metrics (data : list cres) : list (Z * list (fl * fl)) := fold_left (fun m r => upsert (fst r) [] (fun l => l ++ [snd r]) m) data [].
(** plots.py 308-312: the lists of the distances 17 and 21 are sorted in place, those of the others stay as they are *)
Definition drawn_distance (d : Z) : bool := ((d =? 17) || (d =? 21))%Z.
Definition c_sort (x : Z * list (fl * fl)) : Z * list (fl * fl) := (fst x, if drawn_distance (fst x) then isort (lex Z.leb Z.leb) (snd x) else snd x).
(** idx, p_to_col, p_data *)
Record cst := mkC { c_idx : nat; c_col : list (Z * nat); c_pd : list (Z * list (Z * fl)) }.
(** plots.py 326-332 *)
Definition c_point (pers : list fl) (d : Z) (pt : fl * fl) (s : cst) : py cst :=
  if mem (fst pt) pers then
    do s' <- (match lookup (fst pt) (c_pd s) with
              | Some _ => Ret s
              | None => do c <- cols_at (c_idx s); Ret (mkC (S (c_idx s)) (upsert (fst pt) c (fun _ => c) (c_col s)) (c_pd s ++ [(fst pt, [])]))
              end);
    Ret (mkC (c_idx s') (c_col s') (upsert (fst pt) [] (fun l => l ++ [(d, snd pt)]) (c_pd s')))
  else Ret s.
Fixpoint pfold {A S} (f : A -> S -> py S) (l : list A) (s : S) : py S := match l with [] => Ret s | a :: l' => do s' <- f a s; pfold f l' s' end.
(** plots.py 333-340 *)
Definition c_line (ds : list Z) (z3 : bool) (col : list (Z * nat)) (pl : Z * list (Z * fl)) : py ccmd :=
  match lookup (fst pl) col with
  | None => Raise KeyError
  | Some c => if length (snd pl) =? length ds then Ret (Distances ds (map snd (snd pl)) (fst pl) z3 c) else Raise ValueError
  end.
Fixpoint tlookup (k : text) (m : list (text * nat)) : option nat := match m with [] => None | (k', v) :: m' => if text_eqb k k' then Some v else tlookup k m' end.
(** plots.py 284-340: the directories with files, in the order of os.walk, each with its last path component; one batch of lines for each *)
Fixpoint c_loop (pers : list fl) (dirs : list (text * list cres)) (idx : nat) (scol : list (text * nat)) (pcol : list (Z * nat)) : py (list (list ccmd)) :=
  match dirs with
  | [] => Ret []
  | (solver, data) :: dirs' =>
      do st <- (match tlookup solver scol with Some _ => Ret (idx, scol) | None => do c <- cols_at idx; Ret (S idx, (solver, c) :: scol) end);
      do c <- (match tlookup solver (snd st) with Some c => Ret c | None => Raise KeyError end);
      let ms := items (c_metrics data) in
      let ms' := map c_sort ms in
      let top := map (fun x => Rates (map fst (snd x)) (map snd (snd x)) solver (fst x) c) (filter (fun x => drawn_distance (fst x)) ms') in
      let ds := map fst ms' in
      do s <- pfold (fun x => pfold (c_point pers (fst x)) (snd x)) ms' (mkC 0 pcol []);
      do low <- pmap (c_line ds (text_eqb solver (tx "z3")) (c_col s)) (items (c_pd s));
      do rest <- c_loop pers dirs' (c_idx s) (snd st) (c_col s);
      Ret ((top ++ low) :: rest)
  end.
(** plots.py 284-286: directories without files are skipped *)
Definition with_files (dirs : list (text * list cres)) : list (text * list cres) := filter (fun x => match snd x with [] => false | _ => true end) dirs.
Definition generate_plots_comp (pers : list fl) (dirs : list (text * list cres)) : py (list (list ccmd)) := c_loop pers (with_files dirs) 0 [] [].
