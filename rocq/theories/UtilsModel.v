(** * UtilsModel: model of src/Utils.cpp and include/Code.hpp. *)
From Verif Require Export PluModel.

(** Exceptions as values. *)
Inductive exn := QeccException | OutOfRange | InvalidArgument | NullDeref.
Inductive result (A : Type) := Ok (a : A) | Err (e : exn).
Arguments Ok {A} _. Arguments Err {A} _.

Definition bind {A B} (r : result A) (f : A -> result B) : result B :=
  match r with Ok a => f a | Err e => Err e end.
Notation "'let*' x ':=' r 'in' k" := (bind r (fun x => k)) (at level 200, x pattern, r at level 100, k at level 200).

(** src/Utils.cpp:71-75 assertMatrixPresent *)
Definition matrixPresent (M : mat) : bool :=
  match M with [] => false | [] :: _ => false | _ => true end.

(** src/Utils.cpp:77-81 assertVectorPresent *)
Definition vectorPresent (v : vec) : bool := match v with [] => false | _ => true end.

(** transp.at(j).at(i) = x, src/Utils.cpp:51; [.at] throws std::out_of_range. *)
Definition setAt2 (j i : nat) (x : bool) (T : mat) : result mat :=
  if j <? length T then
    if i <? length (nth j T []) then Ok (set_nth j (set_nth i x (nth j T [])) T) else Err OutOfRange
  else Err OutOfRange.

(** inner loop, src/Utils.cpp:50-52 *)
Fixpoint transpRow (i j : nat) (row : vec) (T : mat) : result mat :=
  match row with
  | [] => Ok T
  | x :: row' => let* T' := setAt2 j i x T in transpRow i (S j) row' T'
  end.

(** outer loop, src/Utils.cpp:48-53 *)
Fixpoint transpRows (i : nat) (M : mat) (T : mat) : result mat :=
  match M with
  | [] => Ok T
  | row :: M' => let* T' := transpRow i 0 row T in transpRows (S i) M' T'
  end.

(** src/Utils.cpp:45-55 getTranspose *)
Definition getTranspose (M : mat) : result mat :=
  if matrixPresent M then
    transpRows 0 M (repeat (repeat false (length M)) (length (hd [] M)))
  else Err QeccException.

(** src/Utils.cpp:195-216 toCsc; mat.at(j).at(i) throws when a later row is shorter than row 0. *)
Definition toCsc (M : mat) : result (list (list nat)) :=
  match M with
  | [] => Ok []
  | r0 :: _ =>
      if forallb (fun r => length r0 <=? length r) M
      then Ok (map (fun i => filter (fun j => nth i (nth j M []) false) (seq 0 (length M))) (seq 0 (length r0)))
      else Err OutOfRange
  end.

(** src/Utils.cpp:33-38: indices of the ones of a vector *)
Definition onesIdx (v : vec) : list nat := filter (fun i => nth i v false) (seq 0 (length v)).

(** src/Utils.cpp:19-43 isVectorInRowspace *)
Definition isVectorInRowspace (inmat : mat) (v : vec) : result bool :=
  if negb (matrixPresent inmat) then Err QeccException           (* line 20 *)
  else if negb (vectorPresent v) then Err QeccException           (* line 21 *)
  else if negb (existsb (fun b => b) v) then Ok true              (* lines 22-24 *)
  else if negb (length v =? length (hd [] inmat)) then Err QeccException  (* lines 25-27 *)
  else
    let* matrix := getTranspose inmat in                          (* line 28 *)
    let* csc := toCsc matrix in                                   (* line 29 *)
    let rows := length matrix in
    let cols := length (hd [] matrix) in
    let plu1 := pluDecompose rows cols csc in                     (* line 31 *)
    let plu2 := pluDecompose rows (cols + 1) (csc ++ [onesIdx v]) in  (* lines 33-41 *)
    Ok (matrixRank plu2 =? matrixRank plu1).                      (* line 42 *)

(** row.at(k) && vec.at(k) accumulated with ^, src/Utils.cpp:64-66 *)
Fixpoint accRow (acc : bool) (row v : vec) : result bool :=
  match v with
  | [] => Ok acc
  | x :: v' => match row with
               | [] => Err OutOfRange
               | y :: row' => accRow (xorb acc (y && x)) row' v'
               end
  end.

(** src/Utils.cpp:62-68; result.at(i) throws past its size *)
Fixpoint mulRows (M : mat) (v : vec) (res : vec) : result vec :=
  match M with
  | [] => Ok res
  | row :: M' =>
      match res with
      | [] => Err OutOfRange
      | a :: res' => let* a' := accRow a row v in let* rest := mulRows M' v res' in Ok (a' :: rest)
      end
  end.

(** src/Utils.cpp:57-69 rectMatrixMultiply.  [res] is the caller's out-parameter on entry (the code
    XORs into its old contents); [cap] is result.capacity(). *)
Definition rectMatrixMultiply (M : mat) (v : vec) (cap : nat) (res : vec) : result vec :=
  if negb (matrixPresent M) then Err QeccException
  else if negb (vectorPresent v) then Err QeccException
  else if negb (length (hd [] M) =? length v) || (cap <? length M) then Err QeccException
  else mulRows M v res.

(** src/Utils.cpp:83-87 swapRows, column by column; only used on rectangular matrices *)
Definition utilsSwapRows (M : mat) (r1 r2 : nat) : mat :=
  fold_left (fun M c =>
    let x1 := nth c (nth r1 M []) false in
    let x2 := nth c (nth r2 M []) false in
    let M := set_nth r1 (set_nth c x2 (nth r1 M [])) M in
    set_nth r2 (set_nth c x1 (nth r2 M [])) M) (seq 0 (length (hd [] M))) M.

(** src/Utils.cpp:154-158 computeResidualErr: error.at(j) throws when error is shorter. *)
Fixpoint computeResidualErr (error residual : vec) : result vec :=
  match residual with
  | [] => Ok []
  | b :: residual' =>
      match error with
      | [] => Err OutOfRange
      | a :: error' => let* rest := computeResidualErr error' residual' in Ok (negb (eqb b a) :: rest)
      end
  end.

(** ** include/Code.hpp *)

(** include/Code.hpp:108-117: hX may be absent (nullptr); n = columns of hZ. *)
Record code := mkCode { c_hX : option mat; c_hZ : mat; c_n : nat }.

(** include/Code.hpp:148-149 *)
Definition codeZ (hz : mat) : code := mkCode None hz (length (hd [] hz)).
(** include/Code.hpp:155-158 Code(hx, hz): no orthogonality or shape check *)
Definition codeXZ (hx hz : mat) : code := mkCode (Some hx) hz (length (hd [] hz)).

(** include/Code.hpp:170-180: the constructor reading both matrices from files, after parsing *)
Definition codeFromFiles (hx hz : mat) : result code :=
  if negb (matrixPresent hz) || negb (matrixPresent hx) then Err QeccException
  else if negb (length (hd [] hx) =? length (hd [] hz)) then Err QeccException
  else Ok (codeXZ hx hz).

(** fresh result vector of the right size, then multiply: include/Code.hpp:209-211, 224-228 *)
Definition syndromeOf (H : mat) (err : vec) : result vec :=
  rectMatrixMultiply H err (length H) (repeat false (length H)).

(** include/Code.hpp:219-234 getSyndrome(xerr, zerr) *)
Definition getSyndrome (c : code) (xerr zerr : vec) : result vec :=
  if negb (vectorPresent xerr) || negb (vectorPresent zerr) || negb (length xerr =? c_n c) || negb (length zerr =? c_n c)
  then Err QeccException
  else
    let* xs := syndromeOf (c_hZ c) xerr in
    match c_hX c with
    | None => Err NullDeref
    | Some hx => let* zs := syndromeOf hx zerr in Ok (xs ++ zs)
    end.

(** include/Code.hpp:195-212 getXSyndrome *)
Definition getXSyndrome (c : code) (err : vec) : result vec :=
  if negb (vectorPresent err) then Err QeccException
  else if c_n c <? length err then getSyndrome c (firstn (c_n c) err) (skipn (c_n c) err)
  else syndromeOf (c_hZ c) err.

(** include/Code.hpp:241-246 isXStabilizer *)
Definition isXStabilizer (c : code) (est : vec) : result bool :=
  match c_hX c with
  | None => Err QeccException
  | Some hx => isVectorInRowspace hx est
  end.

(** include/Code.hpp:255-257 isStabilizer(xest, zest) (short-circuit &&) *)
Definition isStabilizer2 (c : code) (xest zest : vec) : result bool :=
  match c_hX c with
  | None => Err NullDeref
  | Some hx => let* a := isVectorInRowspace hx xest in
               if a then isVectorInRowspace (c_hZ c) zest else Ok false
  end.

(** include/Code.hpp:266-280 isStabilizer(est): one vector holding both parts when longer than n *)
Definition isStabilizer1 (c : code) (est : vec) : result bool :=
  if forallb negb est then Ok true
  else if c_n c <? length est then
    isStabilizer2 c (firstn (length est / 2) est) (skipn (length est / 2) est)
  else match c_hX c with
       | None => Err NullDeref
       | Some hx => isVectorInRowspace hx est
       end.

(** ** Tanner graph neighbours, include/Code.hpp:67-99 *)

(** uncached answer; pcm rows are assumed as long as row 0, an index past the last check throws
    out_of_range from pcm->at(nodeIdx - nrBits) *)
Definition nbrsUncached (pcm : mat) (nodeIdx : nat) : result (list nat) :=
  if negb (matrixPresent pcm) then Err QeccException
  else
    let nrChecks := length pcm in
    let nrBits := length (hd [] pcm) in
    if nodeIdx <? nrBits then
      Ok (map (fun i => nrBits + i) (filter (fun i => nth nodeIdx (nth i pcm []) false) (seq 0 nrChecks)))
    else if nodeIdx - nrBits <? nrChecks then
      Ok (filter (fun i => nth i (nth (nodeIdx - nrBits) pcm []) false) (seq 0 nrBits))
    else Err OutOfRange.

(** nbrCache: association list, include/Code.hpp:35 *)
Definition cache := list (nat * list nat).
Fixpoint cacheFind (c : cache) (k : nat) : option (list nat) :=
  match c with
  | [] => None
  | (k', v) :: c' => if k =? k' then Some v else cacheFind c' k
  end.

(** include/Code.hpp:73-99 getNbrs with the cache *)
Definition getNbrs (pcm : mat) (c : cache) (nodeIdx : nat) : result (list nat) * cache :=
  match cacheFind c nodeIdx with
  | Some v => (Ok v, c)
  | None => match nbrsUncached pcm nodeIdx with
            | Ok v => (Ok v, (nodeIdx, v) :: c)
            | Err e => (Err e, c)
            end
  end.

(** include/Decoder.hpp:87-93 setCode: note the argument order *)
Definition decoderSetCode (c : code) : code :=
  match c_hX c with
  | None => codeZ (c_hZ c)
  | Some hx => codeXZ (c_hZ c) hx
  end.
