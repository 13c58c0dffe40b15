(* Model of the result files of src/mqt/qecc/analog_information_decoding: utils/data_utils.py create_outpath, merge_json_files,
   merge_json_files_x, _z, _xz and load_data, and the file side of the simulators' save_results, over a file system that other
   processes use at the same time.

   A file system is a list of entries (resolved path, node).  Simplifications: no symbolic links, no "." or ".." components in
   the paths given by the user, no permissions, no other failure of the operating system; a path string is split at its
   slashes into components (experiment, codename and the formatted numbers contain none).  The content of a file is what
   json.load makes of it: a dictionary, a list of dictionaries or an exception (an empty file, and a file of which only a
   strict beginning of the JSON text has been written, do not decode). *)
From Coq Require Import List String Ascii Arith Bool Decimal DecimalString.
From Verif Require Import StatsModel.
Import ListNotations.
Local Open Scope nat_scope.
Local Open Scope string_scope.

Definition apath := list string.   (* a resolved path: the components below the root *)
Inductive content := CDict (d : dict) | CList (l : list dict) | CBroken.
Inductive node := Dir | File (c : content).
Definition fs := list (apath * node).

Definition apath_eqb (p q : apath) : bool := if list_eq_dec string_dec p q then true else false.
Fixpoint lookup (p : apath) (s : fs) : option node :=
  match s with [] => None | (q, n) :: r => if apath_eqb p q then Some n else lookup p r end.
Fixpoint write (p : apath) (n : node) (s : fs) : fs :=
  match s with [] => [(p, n)] | (q, m) :: r => if apath_eqb p q then (q, n) :: r else (q, m) :: write p n r end.
Definition is_dir (p : apath) (s : fs) : bool := match lookup p s with Some Dir => true | _ => false end.
Definition exists_ (p : apath) (s : fs) : bool := match lookup p s with Some _ => true | None => false end.

(* pathlib.Path: absolute or relative, and its components.  "a / b" is b if b is absolute *)
Record ppath := { absolute : bool; parts : list string }.
Definition join (a b : ppath) : ppath := if absolute b then b else {| absolute := absolute a; parts := parts a ++ parts b |}.
Definition sub (a : ppath) (x : string) : ppath := {| absolute := absolute a; parts := parts a ++ [x] |}.
Definition resolve (cwd : apath) (p : ppath) : apath := if absolute p then parts p else (cwd ++ parts p)%list.
(* Path.name: the last component, "" if there is none *)
Definition name (p : ppath) : string := last (parts p) "".
Definition parent (p : apath) : apath := removelast p.

(* the last dot of a name: what is before it and what is after it *)
Fixpoint rsplit (s : string) : option (string * string) :=
  match s with
  | "" => None
  | String c r => match rsplit r with
                  | Some (a, b) => Some (String c a, b)
                  | None => if Ascii.eqb c "."%char then Some ("", r) else None
                  end
  end.
(* Path.suffix: needs something on both sides of the last dot; the result is (stem, suffix without the dot) *)
Definition suffix (s : string) : option (string * string) :=
  match rsplit s with Some (String a x, String b y) => Some (String a x, String b y) | _ => None end.
Definition is_json (s : string) : bool := match suffix s with Some (_, e) => String.eqb e "json" | None => false end.
(* path.with_suffix("") *)
Definition drop_suffix (p : ppath) : ppath :=
  match suffix (name p) with
  | Some (stem, _) => {| absolute := absolute p; parts := removelast (parts p) ++ [stem] |}
  | None => p
  end.

(* Path.iterdir: the names of the entries of a directory, in no particular order (here: the order of the entry list, and
   the theorems hold for every entry list) *)
Fixpoint child_of (p q : apath) : option string :=
  match p, q with
  | [], [x] => Some x
  | a :: p', b :: q' => if String.eqb a b then child_of p' q' else None
  | _, _ => None
  end.
Definition children (p : apath) (s : fs) : list string :=
  flat_map (fun e => match child_of p (fst e) with Some x => [x] | None => [] end) s.

Inductive fres (A : Type) := FOk (a : A) | FRaise.
Arguments FOk {A} _.
Arguments FRaise {A}.
Definition fbind {A B} (x : fres A) (f : A -> fres B) : fres B := match x with FOk a => f a | FRaise => FRaise end.

(* data_utils.py:372-382 (and 412-421, 452-461, 484-493, the same text): the decodable ".json" entries of one folder.
   [folder_path / filename] joins again what iterdir has already joined *)
Fixpoint load_folder (cwd : apath) (s : fs) (folder : ppath) (names : list string) : fres (list content) :=
  match names with
  | [] => FOk []
  | y :: r =>
    if is_json y then
      match lookup (resolve cwd (join folder (sub folder y))) s with
      | Some (File CBroken) => load_folder cwd s folder r                                  (* JSONDecodeError: pass *)
      | Some (File c) => fbind (load_folder cwd s folder r) (fun data => FOk (c :: data))
      | _ => FRaise                                                     (* FileNotFoundError, IsADirectoryError *)
      end
    else load_folder cwd s folder r
  end.

(* the merge function gets what json.load returned; a list among them makes dict(...) or .get raise *)
Fixpoint dicts (l : list content) : fres (list dict) :=
  match l with
  | [] => FOk []
  | CDict d :: r => fbind (dicts r) (fun ds => FOk (d :: ds))
  | _ :: _ => FRaise
  end.
Definition merge_contents (merge : list dict -> mres) (l : list content) : fres dict :=
  fbind (dicts l) (fun ds => match merge ds with MOk d => FOk d | _ => FRaise end).

(* data_utils.py:366-386 (406-425, 445-465, 477-500): the loop over the folders.  [input_path / folder_name] joins again
   what iterdir has already joined *)
Fixpoint merge_folders (merge : list dict -> mres) (cwd : apath) (s : fs) (input : ppath) (names : list string) : fres (list dict) :=
  match names with
  | [] => FOk []
  | x :: r =>
    let folder_path := join input (sub input x) in
    if is_dir (resolve cwd folder_path) s then
      fbind (load_folder cwd s folder_path (children (resolve cwd folder_path) s)) (fun data =>
      fbind (merge_contents merge data) (fun merged =>
      fbind (merge_folders merge cwd s input r) (fun out =>
        FOk match merged with [] => out | _ => merged :: out end)))
    else merge_folders merge cwd s input r
  end.

(* data_utils.py:355-392 merge_json_files with merge = merge_datasets; 395-431 merge_json_files_x with
   _merge_datasets_x; 434-472 merge_json_files_z with _merge_datasets_z; 475-512 merge_json_files_xz with merge_xz *)
Definition merge_files (merge : list dict -> mres) (cwd : apath) (input : ppath) (s : fs) : fres fs :=
  if is_dir (resolve cwd input) s then
    fbind (merge_folders merge cwd s input (children (resolve cwd input) s)) (fun out =>
      let target := (parent (resolve cwd input) ++ [(name input ++ ".json")%string])%list in
      if is_dir target s then FRaise else FOk (write target (File (CList out)) s))
  else FRaise.
Definition merge_json_files := merge_files merge_datasets.
Definition merge_json_files_x := merge_files (merge_datasets_side "x").
Definition merge_json_files_z := merge_files (merge_datasets_side "z").
Definition merge_json_files_xz := merge_files merge_xz.

(* data_utils.py:54-69 load_data *)
Fixpoint load_data (cwd : apath) (s : fs) (files : list ppath) : fres (list content * fs) :=
  match files with
  | [] => FOk ([], s)
  | p :: r =>
    match lookup (resolve cwd p) s with
    | Some (File CBroken) =>
      fbind (merge_json_files cwd (drop_suffix p) s) (fun s' =>
        match lookup (resolve cwd p) s' with
        | Some (File CBroken) | Some Dir | None => FRaise
        | Some (File c) => fbind (load_data cwd s' r) (fun '(out, s'') => FOk (c :: out, s''))
        end)
    | Some (File c) => fbind (load_data cwd s r) (fun '(out, s'') => FOk (c :: out, s''))
    | _ => FRaise
    end
  end.

(* ---- create_outpath ---- *)
(* f"{identifier}" for a natural number *)
Definition str_nat (n : nat) : string := NilZero.string_of_uint (Nat.to_uint n).

(* The parameters; the numbers that the code formats (bias entries, data_err_rate and the sigmas with .3e) are given as the
   formatted strings.  sus_th_depth, rounds and repetitions are given as None when they are None or 0 (both are false) *)
Record settings := {
  experiment : string; analog_info : bool; analog_tg : bool; bias : option (string * string * string);
  single_stage : bool; sus_th_depth : option nat; rounds : option nat; repetitions : option nat;
  x_meta : bool; z_meta : bool; codename : string;
  per : string; ser : option string; sigma : option string; xz_sigma : option (string * string) }.

Definition str_bool (b : bool) : string := if b then "True" else "False".

(* data_utils.py:125-159: the components of the path, and what stands after the last slash *)
Definition out_dir (c : settings) : list string :=
  (["results"; experiment c; if analog_info c then "analog_info" else if analog_tg c then "analog_tg" else "hard_syndrome"]
   ++ match bias c with
      | Some (a, b, d) => [("single_stage=" ++ str_bool (single_stage c))%string; ("bias=" ++ a ++ "_" ++ b ++ "_" ++ d)%string]
      | None => [] end
   ++ match sus_th_depth c, rounds c with
      | Some k, _ => [("sus_th_depth=" ++ str_nat k)%string]
      | None, Some k => [("rounds=" ++ str_nat k)%string]
      | None, None => [] end
   ++ match repetitions c with Some k => [("repetitions=" ++ str_nat k)%string] | None => [] end
   ++ [("x-meta=" ++ if x_meta c then "true" else "false")%string; ("z-meta=" ++ if z_meta c then "true" else "false")%string; codename c]
   ++ match ser c with
      | None => match sigma c with Some v => [("per_" ++ per c ++ "_sigma_" ++ v)%string] | None => [] end
      | Some v => [("per_" ++ per c ++ "_ser_" ++ v)%string] end)%list.
(* 156: this f-string has no slash at its end *)
Definition out_stem (c : settings) : string :=
  match ser c, xz_sigma c with
  | None, Some (x, z) => "per_" ++ per c ++ "_x_sigma_" ++ x ++ "_z_sigma_" ++ z
  | _, _ => ""
  end.
(* 163, 166: path + f"id_{identifier}.json" *)
Definition out_file (c : settings) (id : nat) : list string := (out_dir c ++ [(out_stem c ++ "id_" ++ str_nat id ++ ".json")%string])%list.
(* 161: the directory of Path(path), where the trailing slash, if any, does not count *)
Definition mkdir_path (c : settings) : list string := (out_dir c ++ match out_stem c with "" => [] | st => [st] end)%list.

(* Path.mkdir(parents=True, exist_ok=True), from the outermost directory; an existing file on the way raises *)
Fixpoint mkdirs (at_ : apath) (rest : list string) (s : fs) : fres fs :=
  match rest with
  | [] => FOk s
  | x :: r => match lookup (at_ ++ [x])%list s with
              | Some Dir => mkdirs (at_ ++ [x])%list r s
              | None => mkdirs (at_ ++ [x])%list r (write (at_ ++ [x])%list Dir s)
              | Some (File _) => FRaise
              end
  end.
(* Path.touch(): creates an empty file, and leaves an existing entry as it is *)
Definition touch (p : apath) (s : fs) : fs := if exists_ p s then s else write p (File CBroken) s.

(* 164-166: the loop, with fuel; None: out of fuel *)
Fixpoint free_id (cwd : apath) (c : settings) (s : fs) (fuel id : nat) : option nat :=
  match fuel with
  | 0 => None
  | S f => if exists_ (cwd ++ out_file c id)%list s then free_id cwd c s f (S id) else Some id
  end.
(* data_utils.py:108-170 create_outpath, run without interference; the fuel is the number of entries plus one, and
   running out of it would be a loop that does not end.  The result is the path returned and the new file system *)
Definition create_outpath (cwd : apath) (c : settings) (identifier : nat) (s : fs) : fres (option (list string * fs)) :=
  fbind (mkdirs cwd (mkdir_path c) s) (fun s1 =>
    FOk match free_id cwd c s1 (S (List.length s1)) identifier with
        | None => None
        | Some id => Some (out_file c id, touch (cwd ++ out_file c id)%list s1)
        end).

(* ---- several processes at once ---- *)
(* Each process calls create_outpath, and then writes its result into the returned file any number of times, as
   utils/simulation_utils.py:278-279 and simulators/analog_tannergraph_decoding.py:308-309 do: open(mode="w") truncates the
   file, json.dump and close complete it.  A process that is not scheduled again has crashed.  The creation of the directories
   is one step. *)
Inductive pstate :=
| PStart (id : nat)            (* before line 161 *)
| PCheck (id : nat)            (* before the test of line 164 *)
| PTouch (id : nat)            (* after the test, before line 168 *)
| PDone (id : nat)             (* has returned the path of id *)
| PWriting (id : nat)          (* the file has been opened for writing *)
| PFailed.
Record proc := { pset : settings; pst : pstate }.

Definition pstep (cwd : apath) (d : dict) (p : proc) (s : fs) : pstate * fs :=
  let file id := (cwd ++ out_file (pset p) id)%list in
  match pst p with
  | PStart id => match mkdirs cwd (mkdir_path (pset p)) s with FOk s1 => (PCheck id, s1) | FRaise => (PFailed, s) end
  | PCheck id => if exists_ (file id) s then (PCheck (S id), s) else (PTouch id, s)
  | PTouch id => (PDone id, touch (file id) s)
  | PDone id => (PWriting id, write (file id) (File CBroken) s)
  | PWriting id => (PDone id, write (file id) (File (CDict d)) s)
  | PFailed => (PFailed, s)
  end.

Fixpoint update_nth {A} (n : nat) (x : A) (l : list A) : list A :=
  match l, n with [], _ => [] | _ :: r, 0 => x :: r | y :: r, S m => y :: update_nth m x r end.

Definition config := (list proc * fs)%type.
(* one step of process i, which writes d if it is about to complete a write *)
Definition cstep (cwd : apath) (c : config) (e : nat * dict) : config :=
  match nth_error (fst c) (fst e) with
  | None => c
  | Some p => let (st, s) := pstep cwd (snd e) p (snd c) in
              (update_nth (fst e) {| pset := pset p; pst := st |} (fst c), s)
  end.
Definition run (cwd : apath) (c : config) (sched : list (nat * dict)) : config := fold_left (cstep cwd) sched c.
