(** * UfModel: class UFDecoder (src/UFDecoder.cpp, include/UFDecoder.hpp)

    Nodes of the Tanner graph of the decoder's hZ are numbers: bits 0..n-1, checks n..n+m-1.  A std::set<size_t> is the ascending
    list of its elements.  The neighbour cache is left out: it is transparent (C31_cache_transparent).  Matrices are non-empty with rows of equal length. *)
From Verif Require Export UtilsModel PluModel.

(** std::set: find, insert *)
Definition smem (x : nat) (s : list nat) : bool := existsb (Nat.eqb x) s.
Fixpoint sinsert (x : nat) (s : list nat) : list nat :=
  match s with [] => [x] | y :: s' => if x <? y then x :: s else if x =? y then s else y :: sinsert x s' end.
Definition sinserts (l s : list nat) : list nat := fold_left (fun s x => sinsert x s) l s.
(** include/Code.hpp:73-99 on a non-empty matrix and a node of its graph *)
Definition nbrs (H : mat) (v : nat) : list nat := match nbrsUncached H v with Ok l => l | Err _ => [] end.

(** src/UFDecoder.cpp:318-331: the queue is read at the back but popped at the front; None: fuel exhausted *)
Fixpoint comp_loop (fuel : nat) (H : mat) (nodes : list nat) (queue ccomp visited : list nat) : option (list nat * list nat) :=
  match queue with
  | [] => Some (ccomp, visited)
  | f :: rest =>
      match fuel with
      | O => None
      | S fuel' =>
          let curr := last queue f in
          if smem curr ccomp then comp_loop fuel' H nodes rest ccomp visited
          else
            let ccomp := sinsert curr ccomp in
            let new := filter (fun v => negb (smem v ccomp) && smem v nodes) (nbrs H curr) in
            comp_loop fuel' H nodes (rest ++ new) ccomp (sinserts new visited)
      end
  end.
(** src/UFDecoder.cpp:307-337 *)
Fixpoint comps_from (fuel : nat) (H : mat) (nodes todo visited : list nat) : option (list (list nat)) :=
  match todo with
  | [] => Some []
  | c :: todo' =>
      if smem c visited then comps_from fuel H nodes todo' visited
      else match comp_loop fuel H nodes [c] [] (sinsert c visited) with
           | None => None
           | Some (ccomp, visited) => match comps_from fuel H nodes todo' visited with None => None | Some l => Some (ccomp :: l) end
           end
  end.
(** the fuel is never exhausted (UfProofs.comps_some) *)
Definition comp_fuel (nodes : list nat) : nat := 1 + length nodes * S (length nodes).
Definition getConnectedComps (H : mat) (nodes : list nat) : list (list nat) := match comps_from (comp_fuel nodes) H nodes nodes [] with Some l => l | None => [] end.

(** src/UFDecoder.cpp:145-155; std::includes on ascending ranges *)
Definition computeInteriorBitNodes (n : nat) (H : mat) (nodeSet : list nat) : list nat :=
  filter (fun v => (v <? n) && forallb (fun u => smem u nodeSet) (nbrs H v)) nodeSet.
(** the rows collected by src/UFDecoder.cpp:178-202: (used checks, redHz, redSyndr) *)
Definition add_row (pcm : mat) (n chk : nat) (bit : bool) (acc : list nat * mat * vec) : result (list nat * mat * vec) :=
  let '(used, redH, redS) := acc in
  match nth_error pcm (chk - n) with
  | None => Err OutOfRange
  | Some row => if smem (chk - n) used then Ok acc else Ok (used ++ [chk - n], redH ++ [row], redS ++ [bit])
  end.
Fixpoint add_rows (pcm : mat) (n : nat) (syndrome checks : list nat) (acc : list nat * mat * vec) : result (list nat * mat * vec) :=
  match checks with
  | [] => Ok acc
  | c :: checks' => let* acc := add_row pcm n c (smem c syndrome) acc in add_rows pcm n syndrome checks' acc
  end.
Fixpoint collect (pcm : mat) (n : nat) (H : mat) (syndrome nodeSet : list nat) (acc : list nat * mat * vec) : result (list nat * mat * vec) :=
  match nodeSet with
  | [] => Ok acc
  | v :: nodeSet' =>
      (* line 182 looks for it - n in the set of node indices of the syndrome, the set holds n + i *)
      let* acc := if n <=? v then add_row pcm n v (smem (v - n) syndrome) acc else add_rows pcm n syndrome (nbrs H v) acc in
      collect pcm n H syndrome nodeSet' acc
  end.
(** src/UFDecoder.cpp:166-218; [n], [H]: number of qubits and hZ of the decoder's code *)
Definition getEstimateForComponent (n : nat) (H pcm : mat) (nodeSet syndrome : list nat) : result (list nat) :=
  match computeInteriorBitNodes n H nodeSet with
  | [] => Ok []
  | _ =>
      let* acc := collect pcm n H syndrome nodeSet ([], [], []) in
      let '(used, redH, redS) := acc in
      let* csc := toCsc redH in
      match redH with
      | [] => Err OutOfRange
      | r0 :: _ => match luSolve (length redH) (length r0) (pluDecompose (length redH) (length r0) csc) redS with
                   | None => Err InvalidArgument
                   | Some x => Ok (onesIdx x)
                   end
      end
  end.
(** src/UFDecoder.cpp:113-125 (any_of stops at the first invalid component; the collected list is never used) with 134-138 *)
Fixpoint anyInvalid (n : nat) (H pcm : mat) (comps : list (list nat)) (syndrome : list nat) : result bool :=
  match comps with
  | [] => Ok false
  | c :: comps' => let* est := getEstimateForComponent n H pcm c syndrome in
                   match est with [] => Ok true | _ => anyInvalid n H pcm comps' syndrome end
  end.
Definition containsInvalidComponents (n : nat) (H pcm : mat) (nodeSet syndrome : list nat) : result bool := anyInvalid n H pcm (getConnectedComps H nodeSet) syndrome.

(** src/UFDecoder.cpp:224-231: the loop visits the elements in ascending order, including those inserted behind the current one;
    all nodes are below [bound] *)
Definition standardGrowth (bound : nat) (H : mat) (comps : list nat) : list nat :=
  fold_left (fun s v => if smem v s then sinserts (nbrs H v) s else s) (seq 0 bound) comps.
(** src/UFDecoder.cpp:237-252: the first of the smallest components *)
Fixpoint smallest (best : list nat) (l : list (list nat)) : list nat :=
  match l with [] => best | c :: l' => smallest (if length c <? length best then c else best) l' end.
Definition grow_by (H : mat) (comp nodeSet : list nat) : list nat := fold_left (fun s v => sinserts (nbrs H v) s) comp nodeSet.
Definition singleClusterSmallestFirstGrowth (H : mat) (nodeSet : list nat) : list nat :=
  match getConnectedComps H nodeSet with [] => nodeSet | c :: l => grow_by H (smallest c l) nodeSet end.
(** src/UFDecoder.cpp:258-273; [r] is the random number in 0..size-1 *)
Definition singleClusterRandomFirstGrowth (H : mat) (r : nat) (nodeSet : list nat) : list nat := grow_by H (nth r (getConnectedComps H nodeSet) []) nodeSet.
(** src/UFDecoder.cpp:287-300; [r] is in 0..size: r = size dereferences the end iterator *)
Definition singleQubitRandomFirstGrowth (H : mat) (r : nat) (nodeSet : list nat) : result (list nat) :=
  match nth_error (getConnectedComps H nodeSet) r with
  | None => Err NullDeref
  | Some comp => match comp with [] => Err NullDeref | v :: _ => Ok (sinserts (nbrs H v) nodeSet) end
  end.

Inductive growth := AllComponents | InvalidComponents | SingleSmallest | SingleRandom | SingleQubitRandom.
Inductive run (A : Type) := Finished (a : A) | Threw (e : exn) | Running.
Arguments Finished {A}. Arguments Threw {A}. Arguments Running {A}.
(** one growth step, src/UFDecoder.cpp:64-80; [r] is the random number of this step *)
Definition grow (g : growth) (bound : nat) (H : mat) (r : nat) (nodes : list nat) : result (list nat) :=
  match g with
  | AllComponents => Ok (standardGrowth bound H nodes)
  | InvalidComponents => Ok nodes
  | SingleSmallest => Ok (singleClusterSmallestFirstGrowth H nodes)
  | SingleRandom => Ok (singleClusterRandomFirstGrowth H r nodes)
  | SingleQubitRandom => singleQubitRandomFirstGrowth H r nodes
  end.
(** the loop of src/UFDecoder.cpp:62-81; one unit of fuel per turn; [rnd] yields the random number of each turn *)
Fixpoint grow_loop (fuel : nat) (g : growth) (rnd : nat -> nat) (n : nat) (H pcm : mat) (syndrome nodes : list nat) : run (list nat) :=
  match containsInvalidComponents n H pcm nodes syndrome with
  | Err e => Threw e
  | Ok inv =>
      if inv && (length nodes <? length pcm + length (hd [] pcm)) then
        match fuel with
        | O => Running
        | S fuel' => match grow g (length H + length (hd [] H)) H (rnd fuel) nodes with Err e => Threw e | Ok nodes' => grow_loop fuel' g rnd n H pcm syndrome nodes' end
        end
      else Finished nodes
  end.
(** src/UFDecoder.cpp:84-105: the estimates of all components, as one set; estimBoolVector *)
Fixpoint estimates (n : nat) (H pcm : mat) (comps : list (list nat)) (syndrome : list nat) (acc : list nat) : result (list nat) :=
  match comps with
  | [] => Ok acc
  | c :: comps' => let* est := getEstimateForComponent n H pcm c syndrome in estimates n H pcm comps' syndrome (sinserts est acc)
  end.
Definition syndrome_nodes (n : nat) (syndrome : vec) : list nat := map (fun i => n + i) (onesIdx syndrome).
Definition setBits (n : nat) (l : list nat) : result vec := if forallb (fun i => i <? n) l then Ok (supp_vec n l) else Err OutOfRange.
(** src/UFDecoder.cpp:45-105.  A syndrome node that is not in the graph of hZ is the start of a component at the first call of
    getConnectedComps, where getNbrs throws (C31_unknown_node_rejected) *)
Definition doDecode (fuel : nat) (g : growth) (rnd : nat -> nat) (n : nat) (H pcm : mat) (syndrome : vec) : run (list nat * vec) :=
  let syndr := syndrome_nodes n syndrome in
  if existsb (fun v => n + length H <=? v) syndr then Threw OutOfRange else
  match (match syndr with [] => Finished [] | _ => grow_loop fuel g rnd n H pcm syndr syndr end) with
  | Running => Running | Threw e => Threw e
  | Finished nodes =>
      match (let* res := estimates n H pcm (getConnectedComps H nodes) syndr [] in let* v := setBits n res in Ok (res, v)) with
      | Ok r => Finished r | Err e => Threw e
      end
  end.
(** src/UFDecoder.cpp:24-43 with reset (278-281) in between; the decoder's code is [decoderSetCode] of the given one *)
Definition ufDecode (fuel : nat) (g : growth) (rnd rnd2 : nat -> nat) (c : code) (syndrome : vec) : run (list nat * vec) :=
  if length (c_hZ c) <? length syndrome then
    let mid := length syndrome / 2 in
    match doDecode fuel g rnd (c_n c) (c_hZ c) (c_hZ c) (firstn mid syndrome) with
    | Running => Running | Threw e => Threw e
    | Finished (xi, xb) =>
        match c_hX c with
        | None => Threw NullDeref
        | Some hx =>
            match doDecode fuel AllComponents rnd2 (c_n c) (c_hZ c) hx (skipn mid syndrome) with
            | Running => Running | Threw e => Threw e
            | Finished (zi, zb) => Finished (zi ++ xi, zb ++ xb)
            end
        end
    end
  else doDecode fuel g rnd (c_n c) (c_hZ c) (c_hZ c) syndrome.
