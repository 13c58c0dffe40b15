(** * UfhModel: class TreeNode (include/TreeNode.hpp) and class UFHeuristic (src/UFHeuristic.cpp)

    nodeMap is the list of the nodes of all vertices 0..n+m-1 of the decoder's hZ: getNodeFromIdx (src/UFHeuristic.cpp:364-377) creates a
    missing node in the state [fresh], so a node that was never asked for and a fresh one cannot be told apart; pointers are vertex numbers.
    A std::unordered_set is the ascending list of its elements; the order in which it is iterated is left open: [ord] below.  The neighbour
    cache is transparent (C31_cache_transparent). *)
From Verif Require Export UfModel.

(** include/TreeNode.hpp:17-26 without vertexIdx (the position) and isCheck (n <= position) *)
Record tnode := mkN { t_parent : option nat; t_children : list nat; t_size : nat; t_boundary : list nat; t_checks : list nat; t_marked : bool; t_deleted : bool }.
Definition forest := list tnode.
(** include/TreeNode.hpp:30-32 with src/UFHeuristic.cpp:369-374 (and 33-36, which builds the same node) *)
Definition fresh (n idx : nat) : tnode := mkN None [] 1 [idx] (if n <=? idx then [idx] else []) false false.
Definition initForest (n m : nat) : forest := map (fresh n) (seq 0 (n + m)).
Definition nd (f : forest) (v : nat) : tnode := nth v f (fresh 0 0).
Definition upd (f : forest) (v : nat) (g : tnode -> tnode) : forest := set_nth v (g (nd f v)) f.

(** include/TreeNode.hpp:38-45: node, parent; None: fuel exhausted *)
Fixpoint findLoop (fuel : nat) (f : forest) (node : nat) (parent : option nat) : option nat :=
  match parent with
  | None => Some node
  | Some p => match t_parent (nd f p) with
              | None => Some p
              | Some q => match fuel with O => None | S fuel' => findLoop fuel' f p (Some q) end
              end
  end.
Definition findOpt (f : forest) (v : nat) : option nat := findLoop (length f) f v (t_parent (nd f v)).
(** include/TreeNode.hpp:36-46; the fuel is never exhausted (C26_find_root) *)
Definition Find (f : forest) (v : nat) : nat := match findOpt f v with Some r => r | None => v end.
(** include/TreeNode.hpp:64-74 *)
Definition addFirstToSecondTree (n : nat) (f : forest) (first second : nat) : forest :=
  let a := nd f first in
  let f := upd f second (fun b => mkN (t_parent b) (t_children b ++ [first]) (t_size b + t_size a) (t_boundary b) (t_checks b ++ t_checks a) (t_marked b) (t_deleted b)) in
  upd f first (fun a => mkN (Some second) (t_children a) (t_size a) (t_boundary a) (if n <=? first then [first] else []) (t_marked a) (t_deleted a)).
(** include/TreeNode.hpp:50-62 *)
Definition Union (n : nat) (f : forest) (v w : nat) : forest :=
  let root1 := Find f v in
  let root2 := Find f w in
  if root1 =? root2 then f
  else if t_size (nd f root1) <=? t_size (nd f root2) then addFirstToSecondTree n f root1 root2 else addFirstToSecondTree n f root2 root1.

(** ** UFHeuristic *)
Definition setBoundary (b : list nat) (a : tnode) : tnode := mkN (t_parent a) (t_children a) (t_size a) b (t_checks a) (t_marked a) (t_deleted a).
(** one edge of src/UFHeuristic.cpp:100-127 *)
Definition fuseEdge (n : nat) (f : forest) (e : nat * nat) : forest :=
  let root1 := Find f (fst e) in
  let root2 := Find f (snd e) in
  if root1 =? root2 then f
  else
    let s1 := t_size (nd f root1) in
    let s2 := t_size (nd f root2) in
    let f := Union n f root1 root2 in
    let b1 := t_boundary (nd f root1) in
    let b2 := t_boundary (nd f root2) in
    if s1 <=? s2 then upd (upd f root2 (setBoundary (sinserts b1 b2))) root1 (setBoundary [])
    else upd (upd f root1 (setBoundary (sinserts b2 b1))) root2 (setBoundary []).
Definition fuse (n : nat) (f : forest) (edges : list (nat * nat)) : forest := fold_left (fuseEdge n) edges f.
(** the order in which a set is iterated: any rearrangement of it *)
Definition order := list nat -> list nat.
(** src/UFHeuristic.cpp:182-198 (209-220, 236-247 for one component); the orders of the components and of the boundaries *)
Definition growEdges (H : mat) (ordC ordB : order) (f : forest) (components : list nat) : list (nat * nat) :=
  flat_map (fun c => flat_map (fun v => map (fun u => (v, u)) (nbrs H v)) (ordB (t_boundary (nd f c)))) (ordC components).
(** src/UFHeuristic.cpp:202-210 *)
Fixpoint smallestComp (f : forest) (best : nat) (size : option nat) (l : list nat) : nat :=
  match l with
  | [] => best
  | c :: l' => let s := t_size (nd f c) in
               if match size with None => true | Some b => s <? b end then smallestComp f c (Some s) l' else smallestComp f best size l'
  end.
(** src/UFHeuristic.cpp:129-146 *)
Definition toRoots (f : forest) (present invalid : list nat) : list nat :=
  fold_left (fun acc c => let r := Find f c in if negb (c =? r) && smem r present then acc else sinsert r acc) invalid [].
(** src/UFHeuristic.cpp:148-166: a boundary vertex stays when some neighbour has another root; a vertex without neighbours is looked at
    forever: None *)
Definition updateBoundary (H : mat) (f : forest) (c : nat) : option forest :=
  let b := t_boundary (nd f c) in
  if existsb (fun v => match nbrs H v with [] => true | _ => false end) b then None
  else Some (upd f c (setBoundary (filter (fun v => existsb (fun u => negb (Find f v =? Find f u)) (nbrs H v)) b))).
Fixpoint updateBoundaries (H : mat) (f : forest) (comps : list nat) : option forest :=
  match comps with [] => Some f | c :: l => match updateBoundary H f c with None => None | Some f => updateBoundaries H f l end end.
(** src/UFHeuristic.cpp:346-361 *)
Definition isValidComponent (H : mat) (f : forest) (c : nat) : bool :=
  forallb (fun k => existsb (fun u => negb (smem u (t_boundary (nd f c)))) (nbrs H k)) (t_checks (nd f c)).

(** what is grown in one turn, src/UFHeuristic.cpp:79-98 with 223-248 ([r mod size] is the random index): (edges, presentMap, invalidComponents after the insertion of the erasure) *)
Definition growTurn (g : growth) (H : mat) (ordC ordB : order) (r : nat) (f : forest) (invalid erasure : list nat) : result (list (nat * nat) * list nat * list nat) :=
  match g with
  | AllComponents => let invalid := sinserts erasure invalid in Ok (growEdges H ordC ordB f invalid, invalid, invalid)
  | InvalidComponents => Ok (growEdges H ordC ordB f invalid, invalid, invalid)
  | SingleSmallest => let c := smallestComp f (hd 0 (ordC invalid)) None (ordC invalid) in Ok (growEdges H (fun l => l) ordB f [c], [c], invalid)
  | SingleRandom => let c := nth (r mod length invalid) (ordC invalid) 0 in Ok (growEdges H (fun l => l) ordB f [c], [c], invalid)
  | SingleQubitRandom => Err InvalidArgument
  end.
(** one turn, src/UFHeuristic.cpp:75-168 *)
Definition turn (g : growth) (n : nat) (H : mat) (ordC ordB : order) (r : nat) (f : forest) (invalid erasure : list nat) : run (forest * list nat * list nat) :=
  match growTurn g H ordC ordB r f invalid erasure with
  | Err e => Threw e
  | Ok (edges, present, invalid) =>
      let f := fuse n f edges in
      let invalid := toRoots f present invalid in
      match updateBoundaries H f invalid with
      | None => Running
      | Some f => Finished (f, filter (fun c => negb (isValidComponent H f c)) invalid, sinserts (filter (isValidComponent H f) invalid) erasure)
      end
  end.
(** the orders and random numbers of a run, by turn *)
Record choices := mkCh { ch_C : nat -> order; ch_B : nat -> order; ch_r : nat -> nat; ch_E : order }.
(** the loop of src/UFHeuristic.cpp:75-168, one unit of fuel per turn *)
Fixpoint turns (fuel : nat) (g : growth) (ch : choices) (n : nat) (H : mat) (f : forest) (invalid erasure : list nat) : run (forest * list nat) :=
  match invalid with
  | [] => Finished (f, erasure)
  | _ =>
      if length invalid <? length H + length (hd [] H) then
        match fuel with
        | O => Running
        | S fuel' => match turn g n H (ch_C ch fuel) (ch_B ch fuel) (ch_r ch fuel) f invalid erasure with
                     | Running => Running | Threw e => Threw e
                     | Finished (f, invalid, erasure) => turns fuel' g ch n H f invalid erasure
                     end
        end
      else Finished (f, erasure)
  end.

(** ** erasureDecoder, src/UFHeuristic.cpp:256-325 *)
Definition setMarked (a : tnode) : tnode := mkN (t_parent a) (t_children a) (t_size a) (t_boundary a) (t_checks a) true (t_deleted a).
Definition setDeleted (a : tnode) : tnode := mkN (t_parent a) (t_children a) (t_size a) (t_boundary a) (t_checks a) (t_marked a) true.
(** lines 270-274, 277-281 *)
Definition visit (n root : nat) (st : forest * list nat) (v : nat) : forest * list nat :=
  let '(f, acc) := st in
  if (negb (t_marked (nd f v)) && negb (smem v (t_boundary (nd f root)))) || (n <=? v) then (upd f v setMarked, acc ++ [v]) else st.
(** lines 267-285; None: fuel exhausted *)
Fixpoint bfs (fuel : nat) (n root : nat) (queue : list nat) (st : forest * list nat) : option (forest * list nat) :=
  match queue with
  | [] => Some st
  | v :: queue' =>
      match fuel with
      | O => None
      | S fuel' =>
          let st := visit n root st v in
          let children := t_children (nd (fst st) v) in
          bfs fuel' n root (queue' ++ children) (fold_left (visit n root) children st)
      end
  end.
(** lines 259-287 *)
Fixpoint interiors (n : nat) (roots : list nat) (f : forest) : option (forest * list (list nat)) :=
  match roots with
  | [] => Some (f, [])
  | r :: roots' => match bfs (length f) n r [r] (f, []) with
                   | None => None
                   | Some (f, acc) => match interiors n roots' f with None => None | Some (f, l) => Some (f, acc :: l) end
                   end
  end.
(** one adjacent check, lines 300-315: nodes, syndrome *)
Definition deleteNbr (f : forest) (u : nat) : forest := if negb (t_deleted (nd f u)) && t_marked (nd f u) then upd f u setDeleted else f.
Definition peelCheck (H : mat) (st : forest * list nat) (c : nat) : forest * list nat :=
  let '(f, syn) := st in
  if t_marked (nd f c) && negb (t_deleted (nd f c)) then
    (upd (fold_left deleteNbr (nbrs H c) f) c setDeleted, filter (fun x => negb (x =? c)) syn)
  else st.
(** lines 294-320: nodes, syndrome, estimate *)
Fixpoint peelComp (n : nat) (H : mat) (comp : list nat) (f : forest) (syn res : list nat) : forest * list nat * list nat :=
  match comp with
  | [] => (f, syn, res)
  | v :: comp' =>
      match syn with
      | [] => (f, syn, res)
      | _ => if (v <? n) && negb (t_deleted (nd f v)) then
               let '(f, syn) := fold_left (peelCheck H) (nbrs H v) (f, syn) in
               peelComp n H comp' (upd f v setDeleted) syn (res ++ [v])
             else peelComp n H comp' f syn res
      end
  end.
Fixpoint peel (n : nat) (H : mat) (comps : list (list nat)) (f : forest) (syn res : list nat) : forest * list nat * list nat :=
  match comps with
  | [] => (f, syn, res)
  | c :: comps' => let '(f, syn, res) := peelComp n H c f syn res in peel n H comps' f syn res
  end.
(** the nodes afterwards, the syndrome left over (not returned by the code) and the estimate *)
Definition erasureDecoder (n : nat) (H : mat) (ordE : order) (f : forest) (erasure syndr : list nat) : option (forest * list nat * list nat) :=
  match interiors n (ordE erasure) f with
  | None => None
  | Some (f, comps) => Some (peel n H comps f syndr [])
  end.
(** src/UFHeuristic.cpp:69-180: the nodes before and after; the estimate as list and as bit vector *)
Definition doDecoding (fuel : nat) (g : growth) (ch : choices) (n : nat) (H : mat) (f : forest) (syndrome : vec) : run (forest * list nat * vec) :=
  let syndr := syndrome_nodes n syndrome in
  match syndr with
  | [] => Finished (f, [], supp_vec n [])
  | _ =>
      match turns fuel g ch n H f syndr [] with
      | Running => Running | Threw e => Threw e
      | Finished (f, erasure) =>
          match erasureDecoder n H (ch_E ch) f erasure syndr with
          | None => Running
          | Some (f, _, res) => if forallb (fun i => i <? n) res then Finished (f, res, supp_vec n res) else Threw OutOfRange
          end
      end
  end.
(** src/UFHeuristic.cpp:47-64 on a decoder in the state left by reset (379-395) or by the constructor: both halves with hZ *)
Definition ufhDecode (fuel : nat) (g : growth) (ch ch2 : choices) (c : code) (syndrome : vec) : run (list nat * vec) :=
  let f0 := initForest (c_n c) (length (c_hZ c)) in
  if length (c_hZ c) <? length syndrome then
    let mid := length syndrome / 2 in
    match doDecoding fuel g ch (c_n c) (c_hZ c) f0 (firstn mid syndrome) with
    | Running => Running | Threw e => Threw e
    | Finished (_, xi, xb) =>
        match doDecoding fuel AllComponents ch2 (c_n c) (c_hZ c) f0 (skipn mid syndrome) with
        | Running => Running | Threw e => Threw e
        | Finished (_, zi, zb) => Finished (zi ++ xi, zb ++ xb)
        end
    end
  else match doDecoding fuel g ch (c_n c) (c_hZ c) f0 syndrome with
       | Running => Running | Threw e => Threw e
       | Finished (_, xi, xb) => Finished (xi, xb)
       end.
