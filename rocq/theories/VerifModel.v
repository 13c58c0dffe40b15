(** * VerifModel: verification stabilizers of src/mqt/qecc/ft_stateprep/state_prep.py: _coset_leader, verification_stabilizers,
    _set_cover, _extend_covering_sets, _heuristic_layer and heuristic_verification_stabilizers.
    np.bool_ and bool are not distinguished (z3 rejects np.bool_; this only matters when a generator row is zero). *)
From Verif Require Export Z3Model.
Local Open Scope nat_scope.

(** ** _coset_leader, state_prep.py 1049-1063 *)
Inductive cl_var := Le (i : nat) | Co (i : nat).
Definition cl_leader (error : vec) : list (expr cl_var Empty_set) := map (fun i => EVar (Le i)) (seq 0 (length error)).
Definition cl_query (error : vec) (gens : mat) : list (expr cl_var Empty_set) :=
  let g := vars_to_stab (map (fun i => Sym (EVar (Co i))) (seq 0 (length gens))) gens in
  [symbolic_vector_eq (map Sym (cl_leader error)) (symbolic_vector_add (map Con error) g)].
(** what z3.Optimize is: formulas and objectives to a model *)
Definition cl_solver := list (expr cl_var Empty_set) -> list (expr cl_var Empty_set) -> z3model cl_var Empty_set.
Definition coset_leader (opt : cl_solver) (error : vec) (gens : mat) : vec :=
  match gens with
  | [] => error
  | _ => let m := opt (cl_query error gens) (cl_leader error) in map (fun i => a_bool (completion m) (Le i)) (seq 0 (length error))
  end.

(** ** verification_stabilizers, state_prep.py 993-1046 *)
Inductive vs_var := Mv (anc g : nat).
Definition vs_stabs (gens : mat) (num_anc : nat) : list (svec vs_var Empty_set) :=
  map (fun anc => vars_to_stab (map (fun i => Sym (EVar (Mv anc i))) (seq 0 (length gens))) gens) (seq 0 num_anc).
Definition vs_query (n : nat) (gens faults : mat) (num_anc num_cnots : nat) : list (expr vs_var Empty_set) :=
  let ms := vs_stabs gens num_anc in
  [EAnd (map (fun error => EPbGe (map (fun m => odd_overlap m error) ms) 1) faults);
   EPbLe (flat_map (fun m => map (fun q => toe (nth q m (Con false))) (seq 0 n)) ms) num_cnots].
Definition vs_solver := list (expr vs_var Empty_set) -> option (z3model vs_var Empty_set).
(** [gens] are sp_circ.z_checks for X errors and sp_circ.x_checks for Z errors; v += gens[g] and v % 2 is a XOR (int8
    wrap-around keeps parities) *)
Definition verification_stabilizers (solver : vs_solver) (n : nat) (gens faults : mat) (num_anc num_cnots : nat) : option (list vec) :=
  match solver (vs_query n gens faults num_anc num_cnots) with
  | Some m => Some (map (fun anc => fold_left (fun v g => if a_bool (completion m) (Mv anc g) then vxor v (nth g gens []) else v)
                                      (seq 0 (length gens)) (vzero n)) (seq 0 num_anc))
  | None => None
  end.

(** ** The heuristic.  A frozenset of fault indices is its characteristic vector (one entry per fault), a Python set of
    frozensets is a duplicate-free list; [ord] is the order in which the interpreter iterates over a set with the given
    elements. *)
Definition fset := vec.
Definition fmem (c : fset) (l : list fset) : bool := existsb (veqb c) l.
Definition setadd (c : fset) (l : list fset) : list fset := if fmem c l then l else l ++ [c].
Definition mapping := fset -> list vec.
Definition m_extend (mp : mapping) (k : fset) (l : list vec) : mapping := fun k' => if veqb k' k then mp k ++ l else mp k'.
(** np.sum of a list of 0/1 vectors *)
Definition msum (l : list vec) : nat := list_sum (map weight l).
(** state_prep.py 820-821 *)
Definition covers (s : vec) (faults : mat) : fset := map (fun f => dot s f) faults.
Definition vand (a b : fset) : fset := map (fun p => fst p && snd p) (combine a b).
Definition vminus (a b : fset) : fset := map (fun p => fst p && negb (snd p)) (combine a b).
(** Python's max with a key: the first element with the greatest key *)
Definition key_lt (u : fset) (mp : mapping) (a b : fset) : bool :=
  let ka := weight (vand a u) in let kb := weight (vand b u) in
  (ka <? kb) || ((ka =? kb) && (msum (mp b) <? msum (mp a))).
Fixpoint pymax (u : fset) (mp : mapping) (best : fset) (l : list fset) : fset :=
  match l with [] => best | c :: l' => pymax u mp (if key_lt u mp best c then c else best) l' end.
Inductive outcome (A : Type) := Done (a : A) | Failed (e : pyexn) | Unfinished.
Arguments Done {A} _. Arguments Failed {A} _. Arguments Unfinished {A}.
(** state_prep.py 824-834; [cands] in iteration order, [fuel] bounds the number of turns *)
Fixpoint set_cover_loop (fuel : nat) (cands : list fset) (mp : mapping) (universe : fset) (cover : list fset) : outcome (list fset) :=
  if weight universe =? 0 then Done cover else
  match fuel with
  | O => Unfinished
  | S fuel' => match cands with
               | [] => Failed ValueError
               | c :: cs => let best := pymax universe mp c cs in set_cover_loop fuel' cands mp (vminus universe best) (setadd best cover)
               end
  end.
Definition set_cover (fuel n : nat) (cands : list fset) (mp : mapping) : outcome (list fset) :=
  set_cover_loop fuel cands mp (repeat true n) [].

(** state_prep.py 837-858 *)
Record ext_state := mkExt { x_rem : list fset; x_add : list fset; x_map : mapping }.
Definition ext_step (cands : list fset) (c1 c2 : fset) (s : ext_state) : ext_state :=
  let comb := vxor c1 c2 in
  if veqb c1 c2 || fmem comb cands || fmem comb (x_add s) || fmem comb (x_rem s) then s else
  mkExt (if weight (vand c1 c2) =? 0 then setadd c2 (setadd c1 (x_rem s)) else x_rem s) (setadd comb (x_add s))
        (m_extend (x_map s) comb (flat_map (fun s1 => map (fun s2 => vxor s1 s2) (x_map s c2)) (x_map s c1))).
(** the inner loop; it is left as soon as to_add is full *)
Fixpoint ext_inner (limit : nat) (cands : list fset) (c1 : fset) (l : list fset) (s : ext_state) : ext_state :=
  match l with
  | [] => s
  | c2 :: l' => if limit <=? length (x_add s) then s else ext_inner limit cands c1 l' (ext_step cands c1 c2 s)
  end.
Definition extend_covering_sets (cands : list fset) (limit : nat) (mp : mapping) : list fset * mapping :=
  let s := fold_left (fun s c1 => ext_inner limit cands c1 cands s) cands (mkExt [] [] mp) in
  (cands ++ x_add s, x_map s).

(** state_prep.py 861-920 *)
Definition cost (mp : mapping) (cover : list fset) : nat * nat := (length cover, list_sum (map (fun c => msum (mp c)) cover)).
Definition cost_lt (a b : nat * nat) : bool := (fst a <? fst b) || ((fst a =? fst b) && (snd a <? snd b)).
Definition add_cand (faults : mat) (sm : list fset * mapping) (s : vec) : list fset * mapping :=
  (setadd (covers s faults) (fst sm), m_extend (snd sm) (covers s faults) [s]).
(** lines 891-909; [cst] is (cost1, cost2).  The comparison with the previous candidates only ends a loop that ends anyway. *)
Fixpoint improve (fuel : nat) (ord : list fset -> list fset) (nf max_sets : nat) (cands : list fset) (mp : mapping) (cover : list fset) (cst : nat * nat)
  : outcome (list fset * mapping) :=
  if max_sets <=? length cands then Done (cover, mp) else
  match fuel with
  | O => Unfinished
  | S fuel' =>
    let '(cands', mp') := extend_covering_sets cands max_sets mp in
    let cands' := ord cands' in
    match set_cover fuel nf cands' mp' with
    | Done new_cover =>
        if cost_lt (cost mp' new_cover) cst then improve fuel' ord nf max_sets cands' mp' new_cover (cost mp' new_cover) else Done (cover, mp')
    | Failed e => Failed e
    | Unfinished => Unfinished
    end
  end.
(** the first list element of least weight: min(.., key=np.sum) and the head after the stable sort *)
Fixpoint min_weight (best : vec) (l : list vec) : vec :=
  match l with [] => best | v :: l' => min_weight (if weight v <? weight best then v else best) l' end.
Definition lightest (l : list vec) : vec := match l with [] => [] | v :: l' => min_weight v l' end.
(** [fuel] bounds the turns of _set_cover and of the improvement loop; the order of the cover is that of a set *)
Definition heuristic_layer (fuel : nat) (ord : list fset -> list fset) (opt : cl_solver) (faults checks : mat) (find_coset_leaders : bool) (max_sets : nat)
  : outcome (list vec) :=
  let candidate (s : vec) := existsb (fun f => dot s f) faults in
  let cand_checks := filter candidate checks in
  let non_checks := filter (fun s => negb (candidate s)) checks in
  let '(cs, mp) := fold_left (add_cand faults) cand_checks ([], fun _ => []) in
  let cs := ord cs in
  let nf := length faults in
  match set_cover fuel nf cs mp with
  | Done cover =>
    match improve fuel ord nf max_sets cs mp cover (cost mp cover) with
    | Done (cover, mp) =>
      Done (map (fun c => if find_coset_leaders && negb (length non_checks =? 0)
                          then lightest (map (fun m => coset_leader opt m non_checks) (mp c)) else lightest (mp c)) (ord cover))
    | Failed e => Failed e
    | Unfinished => Unfinished
    end
  | Failed e => Failed e
  | Unfinished => Unfinished
  end.
