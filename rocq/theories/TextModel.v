(** * TextModel: check matrices and results as text: Utils::importGf2MatrixFromFile, the constructors of include/Code.hpp that take paths,
    Utils::getStringFrom, the conversions to and from JSON of include/Decoder.hpp and include/DecodingRunInformation.hpp, and the names
    of the enumerations in these files, in include/DecodingSimulator.hpp and in src/python/bindings.cpp.

    A text is the list of its characters.  The locale is the classic one.  [int] has 32 bits.  Numbers in JSON are natural numbers or
    rationals (the code has size_t and double). *)
From Coq Require Import List Arith Bool Ascii String ZArith QArith Lia.
From Verif Require Export UtilsModel.
Import ListNotations.
Local Open Scope nat_scope.

Definition text := list ascii.
Definition nl : ascii := "010"%char.

(** std::getline(file, line, '\n') until it fails: the lines; what follows the last newline is a line if there is a character of it *)
Fixpoint getlines (s : text) : list text :=
  match s with
  | [] => []
  | c :: s' =>
      if Ascii.eqb c nl then [] :: getlines s'
      else match getlines s' with
           | [] => [[c]]
           | l :: ls => (c :: l) :: ls
           end
  end.

(** std::isspace in the classic locale *)
Definition isspace (c : ascii) : bool := let n := nat_of_ascii c in (n =? 32) || ((9 <=? n) && (n <=? 13)).
Definition isdigit (c : ascii) : bool := let n := nat_of_ascii c in (48 <=? n) && (n <=? 57).
Definition digitZ (c : ascii) : Z := Z.of_nat (nat_of_ascii c - 48).

Fixpoint skipws (s : text) : text := match s with c :: s' => if isspace c then skipws s' else s | [] => [] end.
(** the digits at the front and what follows them *)
Fixpoint spanDigits (s : text) : text * text :=
  match s with
  | c :: s' => if isdigit c then let '(d, r) := spanDigits s' in (c :: d, r) else ([], s)
  | [] => ([], [])
  end.
Definition decimal (d : text) : Z := fold_left (fun v c => (v * 10 + digitZ c)%Z) d 0%Z.
Definition intMin : Z := (- 2147483648)%Z.
Definition intMax : Z := 2147483647%Z.

(** instream >> word: blanks are skipped, then a sign if there is one, then digits; None: the stream fails (no digit, or no [int]) *)
Definition readInt (s : text) : option (Z * text) :=
  let s1 := skipws s in
  let '(neg, s2) := match s1 with
                    | c :: r => if Ascii.eqb c "-" then (true, r) else if Ascii.eqb c "+" then (false, r) else (false, s1)
                    | [] => (false, s1)
                    end in
  let '(d, r) := spanDigits s2 in
  match d with
  | [] => None
  | _ => let z := if neg then (- decimal d)%Z else decimal d in
         if (intMin <=? z)%Z && (z <=? intMax)%Z then Some (z, r) else None
  end.

(** src/Utils.cpp:173-175 while (instream >> word) tempVec.emplace_back(static_cast<bool>(word)); a reading consumes a character, so that
    the length of the line is enough fuel (TextProofs.readRowF_enough) *)
Fixpoint readRowF (fuel : nat) (s : text) : vec :=
  match fuel with
  | 0 => []
  | S k => match readInt s with Some (z, r) => negb (z =? 0)%Z :: readRowF k r | None => [] end
  end.
Definition readRow (line : text) : vec := readRowF (S (List.length line)) line.

(** src/Utils.cpp:160-179 importGf2MatrixFromFile; None: the file cannot be opened *)
Definition importGf2MatrixFromFile (file : option text) : result mat :=
  match file with
  | None => Err QeccException
  | Some s => Ok (map readRow (getlines s))
  end.

(** the files there are *)
Definition filesystem := string -> option text.

(** include/Code.hpp:41-66 ParityCheckMatrix(filePath): opening a file that is not there throws nothing (the stream only fails) *)
Definition pcmFromFile (fs : filesystem) (path : string) : result mat :=
  if (path =? "")%string then Err QeccException
  else Ok (match fs path with Some s => map readRow (getlines s) | None => [] end).

(** include/Code.hpp:164-169 Code(pathToPcm) *)
Definition codeFromPath (fs : filesystem) (path : string) : result code :=
  let* hz := pcmFromFile fs path in
  if negb (matrixPresent hz) then Err QeccException else Ok (codeZ hz).

(** include/Code.hpp:171-180 Code(pathTohX, pathTohZ) *)
Definition codeFromPaths (fs : filesystem) (pathX pathZ : string) : result code :=
  let* hx := pcmFromFile fs pathX in
  let* hz := pcmFromFile fs pathZ in
  codeFromFiles hx hz.

(** ** Printing *)

(** ostream << size_t; a number has at most as many digits as its value plus one *)
Definition digitOf (n : nat) : ascii := ascii_of_nat (48 + n).
Fixpoint showF (fuel n : nat) : text :=
  match fuel with
  | 0 => []
  | S k => if n <? 10 then [digitOf n] else showF k (n / 10) ++ [digitOf (n mod 10)]
  end.
Definition showNat (n : nat) : text := showF (S n) n.
(** ostream << bool without boolalpha *)
Definition showBit (b : bool) : text := if b then ["1"%char] else ["0"%char].
(** src/Utils.cpp:107-112 and 130-135: elements with commas between them *)
Fixpoint showBits (v : vec) : text :=
  match v with
  | [] => []
  | [b] => showBit b
  | b :: v' => showBit b ++ [","%char] ++ showBits v'
  end.
(** src/Utils.cpp:123-138 getStringFrom(gf2Vec) *)
Definition getStringFromVec (v : vec) : text := ["["%char] ++ showBits v ++ ["]"%char].

(** src/Utils.cpp:106-117: a row, its first [ncols] entries; matrix.at(i).at(j) throws when there are fewer *)
Definition showRow (ncols : nat) (r : vec) : result text :=
  if ncols <=? List.length r then Ok (["["%char] ++ showBits (firstn ncols r) ++ ["]"%char]) else Err OutOfRange.
Fixpoint showRows (ncols : nat) (M : mat) : result text :=
  match M with
  | [] => Ok []
  | r :: M' => let* t := showRow ncols r in
               let* rest := showRows ncols M' in
               Ok (t ++ (match M' with [] => [] | _ => [","%char] end) ++ [nl] ++ rest)
  end.
(** src/Utils.cpp:97-121 getStringFrom(gf2Mat) *)
Definition getStringFromMat (M : mat) : result text :=
  match M with
  | [] => Ok (["["%char; "]"%char])
  | r0 :: _ =>
      let* rows := showRows (List.length r0) M in
      Ok (showNat (List.length M) ++ ["x"%char] ++ showNat (List.length r0) ++ list_ascii_of_string "matrix [" ++ [nl] ++ rows ++ ["]"%char])
  end.

(** ** JSON *)

(** nlohmann::json, the values the code makes; an object is the list of its members *)
Inductive json :=
| JNat (n : nat) | JReal (q : Q) | JBool (b : bool) | JStr (t : text) | JArr (l : list json) | JObj (l : list (string * json)).

(** what a reading may throw: out_of_range.403 (no such member) or type_error.302 (a value of another type) *)
Inductive jexn := NoMember | WrongType.
(** a method that changes its object and may throw on the way: the object afterwards, and the exception *)
Definition step (O : Type) := O -> O * option jexn.
Definition seqs {O} (l : list (step O)) : step O :=
  fold_right (fun f k o => match f o with (o', Some e) => (o', Some e) | (o', None) => k o' end) (fun o => (o, None)) l.

(** j.at(key) *)
Definition jat (j : json) (k : string) : option json :=
  match j with JObj l => option_map snd (find (fun m => (fst m =? k)%string) l) | _ => None end.
(** get<size_t> *)
Definition getNat (j : json) : option nat := match j with JNat n => Some n | _ => None end.
(** get<double> *)
Definition getReal (j : json) : option Q := match j with JNat n => Some (inject_Z (Z.of_nat n)) | JReal q => Some q | _ => None end.
Fixpoint mapo {A B} (f : A -> option B) (l : list A) : option (list B) :=
  match l with [] => Some [] | a :: l' => match f a, mapo f l' with Some b, Some r => Some (b :: r) | _, _ => None end end.
(** get<std::vector<bool>>, get<std::vector<size_t>>: an array whose elements have the type *)
Definition getBools (j : json) : option vec := match j with JArr l => mapo (fun e => match e with JBool b => Some b | _ => None end) l | _ => None end.
Definition getNats (j : json) : option (list nat) := match j with JArr l => mapo getNat l | _ => None end.

(** j.at(key).get_to(field) *)
Definition getTo {O A} (j : json) (key : string) (get : json -> option A) (set : A -> O -> O) : step O := fun o =>
  match jat j key with
  | None => (o, Some NoMember)
  | Some v => match get v with None => (o, Some WrongType) | Some a => (set a o, None) end
  end.

(** include/Decoder.hpp:48-51; the time is in ms *)
Record decodingResult := mkRes { r_time : nat; r_nodes : list nat; r_bools : vec }.
(** include/Decoder.hpp:53-56 *)
Definition resToJson (r : decodingResult) : json :=
  JObj [("decodingTime(ms)"%string, JNat (r_time r)); ("estimate"%string, JStr (getStringFromVec (r_bools r)))].
(** include/Decoder.hpp:57-61 *)
Definition resFromJson (j : json) : step decodingResult := seqs [
  getTo j "decodingTime(ms)" getNat (fun a r => mkRes a (r_nodes r) (r_bools r));
  getTo j "estimate" getBools (fun a r => mkRes (r_time r) (r_nodes r) a);
  getTo j "estimatedNodes" getNats (fun a r => mkRes (r_time r) a (r_bools r))].

(** ** Enumerations *)

(** include/DecodingRunInformation.hpp:16-20 *)
Inductive resultStatus := SUCCESS | FAILURE.
(** include/Decoder.hpp:16-22 *)
Inductive growthVariant := AllC | InvalidC | SingleSmallest | SingleRandom | SingleQubitRandom.
(** include/DecodingSimulator.hpp:13-16 *)
Inductive decoderKind := UfHeuristicT | UfDecoderT.

(** the functions ..FromString: None: std::invalid_argument *)
Definition fromNames {E} (l : list (string * E)) (s : string) : option E := option_map snd (find (fun m => (fst m =? s)%string) l).
(** include/DecodingRunInformation.hpp:22-30 *)
Definition decodingResultStatusFromString : string -> option resultStatus :=
  fromNames [("SUCCESS", SUCCESS); ("0", SUCCESS); ("FAILURE", FAILURE); ("1", FAILURE)]%string.
(** include/Decoder.hpp:24-41 *)
Definition growthVariantFromString : string -> option growthVariant :=
  fromNames [("ALL_COMPONENTS", AllC); ("0", AllC); ("INVALID_COMPONENTS", InvalidC); ("1", InvalidC); ("SINGLE_SMALLEST", SingleSmallest);
             ("2", SingleSmallest); ("SINGLE_RANDOM", SingleRandom); ("3", SingleRandom); ("SINGLE_QUBIT_RANDOM", SingleQubitRandom);
             ("4", SingleQubitRandom)]%string.
(** include/DecodingSimulator.hpp:17-25 *)
Definition decoderTypeFromString : string -> option decoderKind :=
  fromNames [("UF_HEURISTIC", UfHeuristicT); ("0", UfHeuristicT); ("ORIGINAL_UF", UfDecoderT); ("1", UfDecoderT)]%string.

(** NLOHMANN_JSON_SERIALIZE_ENUM: the name of a value (of the first entry when there is none), *)
Definition enumToJson {E} (eqb : E -> E -> bool) (l : list (E * string)) (e : E) : json :=
  match find (fun m => eqb (fst m) e) l, l with
  | Some m, _ => JStr (list_ascii_of_string (snd m))
  | None, m :: _ => JStr (list_ascii_of_string (snd m))
  | None, [] => JStr []
  end.
Definition text_eqb (a b : text) : bool := if list_eq_dec ascii_dec a b then true else false.
(** and the value of a JSON value: the entry with this name, otherwise the first entry *)
Definition enumFromJson {E} (l : list (E * string)) (j : json) : option E :=
  match j with
  | JStr t => match find (fun m => text_eqb (list_ascii_of_string (snd m)) t) l, l with
              | Some m, _ => Some (fst m) | None, m :: _ => Some (fst m) | None, [] => None
              end
  | _ => match l with m :: _ => Some (fst m) | [] => None end
  end.
(** include/DecodingRunInformation.hpp:32-33 *)
Definition statusNames : list (resultStatus * string) := [(SUCCESS, "success"); (FAILURE, "failure")]%string.
(** include/Decoder.hpp:43-47 *)
Definition growthNames : list (growthVariant * string) :=
  [(AllC, "all components"); (InvalidC, "invalid components"); (SingleSmallest, "smallest component only");
   (SingleQubitRandom, "single random qubit only"); (SingleRandom, "single random component")]%string.
(** include/DecodingSimulator.hpp:27-28 *)
Definition decoderNames : list (decoderKind * string) := [(UfHeuristicT, "UF_HEURISTIC"); (UfDecoderT, "UF_DECODER")]%string.
Definition status_eqb (a b : resultStatus) : bool := match a, b with SUCCESS, SUCCESS | FAILURE, FAILURE => true | _, _ => false end.
Definition growth_eqb (a b : growthVariant) : bool :=
  match a, b with
  | AllC, AllC | InvalidC, InvalidC | SingleSmallest, SingleSmallest | SingleRandom, SingleRandom | SingleQubitRandom, SingleQubitRandom => true
  | _, _ => false
  end.
Definition decoder_eqb (a b : decoderKind) : bool := match a, b with UfHeuristicT, UfHeuristicT | UfDecoderT, UfDecoderT => true | _, _ => false end.
Definition statusToJson := enumToJson status_eqb statusNames.
Definition growthToJson := enumToJson growth_eqb growthNames.
Definition decoderToJson := enumToJson decoder_eqb decoderNames.
Definition statusFromJson := enumFromJson statusNames.
Definition growthFromJson := enumFromJson growthNames.
Definition decoderFromJson := enumFromJson decoderNames.

(** include/DecodingRunInformation.hpp:39-60 *)
Record runInformation := mkRun { ri_per : Q; ri_size : nat; ri_error : vec; ri_syndrome : vec; ri_status : resultStatus; ri_result : decodingResult }.
(** include/DecodingRunInformation.hpp:62-69 *)
Definition runToJson (r : runInformation) : json :=
  JObj [("physicalErrRate"%string, JReal (ri_per r)); ("codeSize"%string, JNat (ri_size r));
        ("error"%string, JStr (getStringFromVec (ri_error r))); ("syndrome"%string, JStr (getStringFromVec (ri_syndrome r)));
        ("decodingResult"%string, resToJson (ri_result r)); ("decodingStatus"%string, statusToJson (ri_status r))].
(** include/DecodingRunInformation.hpp:71-77 *)
Definition runFromJson (j : json) : step runInformation := seqs [
  getTo j "physicalErrRate" getReal (fun a r => mkRun a (ri_size r) (ri_error r) (ri_syndrome r) (ri_status r) (ri_result r));
  getTo j "codeSize" getNat (fun a r => mkRun (ri_per r) a (ri_error r) (ri_syndrome r) (ri_status r) (ri_result r));
  getTo j "error" getBools (fun a r => mkRun (ri_per r) (ri_size r) a (ri_syndrome r) (ri_status r) (ri_result r));
  getTo j "syndrome" getBools (fun a r => mkRun (ri_per r) (ri_size r) (ri_error r) a (ri_status r) (ri_result r));
  getTo j "decodingStatus" statusFromJson (fun a r => mkRun (ri_per r) (ri_size r) (ri_error r) (ri_syndrome r) a (ri_result r))].

(** the parameters of a code in the record the JSON is read into: include/Code.hpp:104-106 *)
Record codeParams := mkParams { p_n : nat; p_k : nat; p_d : nat }.
(** include/Code.hpp:100-103 and 324-331: the matrices (as arrays of arrays of booleans, "" for none) and the parameters *)
Definition matToJson (M : mat) : json := JObj [("pcm"%string, JArr (map (fun r => JArr (map JBool r)) M))].
Definition optMatToJson (M : option mat) : json := match M with Some m => matToJson m | None => JStr [] end.
Definition codeToJson (hz hx : option mat) (p : codeParams) : json :=
  JObj [("hZ"%string, optMatToJson hz); ("hX"%string, optMatToJson hx); ("n"%string, JNat (p_n p)); ("k"%string, JNat (p_k p)); ("d"%string, JNat (p_d p))].
(** include/Code.hpp:333-337 *)
Definition codeFromJson (j : json) : step codeParams := seqs [
  getTo j "n" getNat (fun a p => mkParams a (p_k p) (p_d p));
  getTo j "k" getNat (fun a p => mkParams (p_n p) a (p_d p));
  getTo j "d" getNat (fun a p => mkParams (p_n p) (p_k p) a)].

(** ** Names in Python *)

(** pybind11::enum_::value and export_values: the members of the class, and the names put into the module (a later one replaces) *)
Inductive pyValue := PyGrowth (g : growthVariant) | PyStatus (s : resultStatus) | PyDecoder (d : decoderKind).
(** src/python/bindings.cpp:116-122 *)
Definition pyGrowth : list (string * pyValue) :=
  [("ALL_COMPONENTS", PyGrowth AllC); ("INVALID_COMPONENTS", PyGrowth InvalidC); ("SINGLE_SMALLEST", PyGrowth SingleSmallest);
   ("SINGLE_RANDOM", PyGrowth SingleRandom); ("SINGLE_QUBIT_RANDOM", PyGrowth SingleQubitRandom)]%string.
(** src/python/bindings.cpp:154-157 *)
Definition pyStatus : list (string * pyValue) := [("ALL_COMPONENTS", PyStatus SUCCESS); ("INVALID_COMPONENTS", PyStatus FAILURE)]%string.
(** src/python/bindings.cpp:178-181 *)
Definition pyDecoder : list (string * pyValue) := [("UF_HEURISTIC", PyDecoder UfHeuristicT); ("ORIGINAL_UF", PyDecoder UfDecoderT)]%string.
(** the module after export_values of the three, in this order *)
Definition pyModule (name : string) : option pyValue :=
  option_map snd (find (fun m => (fst m =? name)%string) (rev (pyGrowth ++ pyStatus ++ pyDecoder))).
