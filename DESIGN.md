# Formal model of cda-tum/mqt-qecc in Rocq (Coq 8.16.1)

## Approach

* Every modelled function is an executable Gallina function over `bool`/`nat`/`Z`/`Q`/lists that mirrors the source
  branch by branch.  Exceptions are values (`Ret`/`Raise` for Python, `Ok`/`Err` for C++), loops are structural
  recursion, folds, or recursion on fuel with a distinguished out-of-fuel value; a statement about a loop says that it
  finishes for all large enough fuel, or for no fuel.  Files `*Model*.v` hold the definitions, each citing `/repo` file and lines.
* Specifications are small, separate definitions that do not use model helpers: linear span and independence (`Lin`,
  `Lin2`), the Pauli group (`PauliSpec`), states and circuits (`PrepSem`, `FlagSem`, `SimSem`, `EccSem`, `EccSpec`),
  graph walks (`UfProofs`), permutations, sums.
* `*Proofs*.v` hold lemmas; `Prop*.v` hold the property theorems `Cxx_*` and, next to them, `Example`s showing that a
  concrete case meets the hypotheses.
* What the code violates is a theorem `..._refuted` (or named after what really happens) with an explicit witness or
  for all inputs, next to the strongest true statement that was found.  `properties.jsonl` says in words what holds and
  what does not.  A suffix `_partial` marks a theorem that covers only part of the property.
* External libraries are never axiomatised: their results are universally quantified function arguments with an explicit
  contract as a hypothesis, and for each contract an implementation meeting it is constructed and proved (so it is not empty).

## Contracts of external code (hypotheses of theorems, each shown satisfiable)

| contract | stands for | witness |
|---|---|---|
| `ldpc_ok` (CssProofs) | ldpc `mod2.kernel`, `row_basis`, `pivot_rows`; `mod2.rank` is the proved rank `Lin2.rk` | `ldpc_ref_ok` |
| `rre_ok` (PrepProofs2) | `mod2.reduced_row_echelon` | `rre_ref_ok` |
| `LightsModel.solver_ok` | z3 `Optimize` on the LightsOut constraints | `C22_solver_exists` |
| `Z3Model.solver_ok`, `optimizer_ok`, `SynthModel.synth_solver_ok` | z3 `Solver`/`Optimize` on the constraints of state_prep.py | `ref_solve`, `ref_optimizer_ok`, `ref_full` |
| `reorder` (FaultSem2), `layers_of` (SimSem), `ord_ok` | qiskit's DAG traversal orders and layers, iteration order of Python sets | the identity |
| `hex_enum`, `so_enum`, `ch_*` | iteration order of Python sets, of C++ unordered sets | the lists of the model |
| `w_late`, `e_solver` | time-outs, answers of repeated solver calls | any |
| decoders `dec` (Analog*) | BpOsdDecoder / MwpmDecoder: arbitrary functions; where a theorem needs an answer that explains its syndrome this is a hypothesis | `C52_good_last_decoder_exists` |
| random numbers | numpy/C++ generators: arbitrary sequences of draws | any |

## Per property

| id | modelled | how proved |
|----|-------|-------|
| C01-C03 | PluModel: GF2.cpp; UtilsModel: Utils.cpp | invariant of the column elimination with recorded swaps; span/rank specification |
| C04-C05, C31 | UtilsModel: Utils.cpp, Code.hpp | list induction, C03; query histories with the cache |
| C06-C10 | StabModel: stabilizer_code.py | induction on strings; Pauli multiplication table; rank lemmas; refutations |
| C11-C15 | CssModel: css_code.py | dimension theory, non-degeneracy of the pairing |
| C16 | NamedData (transcribed .npy matrices), NamedModel | verified enumeration of all errors below the distance, lifted by a lemma |
| C17-C18 | ColorModel: the three colour-code files | integer arithmetic on lattice coordinates for every odd d (and for every even d: the 4.8.8 construction raises because one border octagon keeps an odd number of corners, the hexagonal one gives a code with no logical qubit); counting; the least weight d of a logical operator by induction over the rows of the lattice (the checks of one row carry an odd vector to the next) |
| C19-C20 | ArrModel, BbModel, ProductModel | matrix algebra of shifts and Kronecker products for all sizes |
| C21-C23 | LightsModel: cc_decoder/decoder.py (but the command line and `simulate_error_rate`) | induction over the helper chain; solver contract |
| C24-C25 | LutModel | enumeration order, call histories |
| C26, C32 | UfhForest/UfhModel: TreeNode.hpp, UFHeuristic.cpp | invariants over operation sequences; loop measure |
| C27-C30 | UfModel: UFDecoder.cpp, Decoder.hpp `setCode` | traversal invariants; witnesses for refutations |
| C33-C34 | PrepModel: heuristic circuits | amplitudes of every basis state (PrepSem); measure of the greedy loop |
| C35-C36 | FaultModel: fault sets with their caches | propagation against the amplitude semantics; exact sums |
| C37-C40 | VerifModel, VerifModel2, SearchModel | z3 contract; search histories |
| C41 | SynthModel | models of the constraints = CNOT circuits, both ways |
| C42-C45 | FlagModel | amplitude semantics with measurements; Pauli propagation by induction on the weight; two-flag gadgets by a verified check of all pairs of faults for each of the six gadgets there are |
| C46 | SimModel: simulation.py | stim circuit against amplitude semantics; batch loop invariants |
| C47-C50, C57 | EccModel: include/ecc, src/ecc | exact amplitudes in Z[exp(i pi/4)] (EccSem); a verified Pauli-sum simulator and stabilizer tableau for one block, lifted to any number of logical qubits by locality lemmas |
| C58 | the same model: whole programs | the pieces of the schedule (C50) are composed: every piece takes an encoded (decoded) state, up to a factor and the ancillas, to the encoded (decoded) state of the original program |
| C51-C54 | AnalogModel, AnalogModel2 | block algebra of the space-time matrix; arbitrary decoder |
| C59 | SingleShotModel: simulators/simulation.py (but timing, BP iteration counts, output text) | block algebra of the single-stage matrix, arbitrary decoders and draws; refutations for all inputs |
| C60 | VirtualModel: log-likelihood helpers of simulation_utils.py | real analysis |
| C61 | WerModel: simulateWER of DecodingSimulator.cpp over UfModel/UfhModel; draws, printing and records are parameters, rates are rationals | induction over rates and runs; termination from C29/C32; the defects as theorems |
| C62 | WerModel: simulateAverageRuntime; decoding times are a parameter | induction over files, runs, samples |
| C63 | CcSimModel: simulate_error_rate, code_from_string; errors and times are parameters | induction over samples with C22 (optimal decoding) and C17/C18 (distance, one logical operator) |
| C64 | HashModel: __hash__ and __eq__ of StabilizerCode, CSSCode, ColorCode, bytes hash abstract; sets and dicts as lookup by hash and == | span equality (C01) and reordering lemmas; refutations by concrete codes |
| C65 | CreateModel: create_code (4D, 3D) and the files written; the hgp of bposd is a parameter (and its documented formula an instance), distances not modelled | C20 (chain complexes) and the logical-operator theorem of C03/C04; the number of logical operators by a Kunneth formula: kernels of the block maps are counted with mathcomp matrices over F_2 (Kun.v) |
| C66 | VerifyModel: the two verification circuits with shared caches; FlagModel: the measurement blocks; amplitudes as in C33/C42 | blocks compose: each gadget maps 'prepared state with error, ancillas so far in known states' to the same with one more ancilla (frag); eigenvalues from C33; detection from C38 |
| C67 | FilesModel: a file system (paths to nodes), merge_json_files and variants, load_data; json.load gives a dictionary, a list or an error | induction over the entry list; sums by C56; the joined relative paths computed |
| C68 | FilesModel: create_outpath and saves as steps of processes that interleave; a crash is a process not scheduled again | invariants over all schedules; pigeonhole for termination; decoding of the path components |
| C69 | SettingsModel: product_dict, zip_dict, extract_settings, from_dict over any value type | list inductions |
| C70 | FlagModel, VerifyModel, FaultModel; Pauli faults inside the circuit as in C42-C44 | Pauli frames: the error is pushed through the circuit and the alarms read off (frame_sound); case analysis on where the fault sits: preparation (fault sets, C35), first or second layer (hook suffixes, flags); then C66 for the amplitudes |
| C71 | AlistModel: the parser of alist2numpy on lines of numbers | induction on the lines; converse by reading back a written file |
| C72 | ChanModel: the channels of AnalogTannergraphDecoder, decode_multiround and QssSimulator; the decoder object is the channel it holds | invariant of the record (which rounds it holds) over the rounds; induction on histories |
| C73 | WrapModel: channels as maps of Bloch vectors (reals), dictionaries as association lists, strings; Aer itself is trusted to act like that, float quotients are exact rationals | induction on the letters; sortedness and prefix argument for the printed lines |
| C74 | FaultModel, SwitchModel: set_error_detection and histories with it | arithmetic of the distances (budget lemma), weight of a sum; induction on the history |
| C75 | VerifModel2, SearchModel (optimal_layer: search, two descents) | the search without time-outs returns the first p of its sequence that is feasible, the descents go on to the least feasible value; feasibility is C38_none/C38_returned; members of the fault sets are dangerous errors (select_useful); termination with fuel bounds, also for C66 |
| C76 | LiftModel: protographs as arrays of lists of exponents, np.kron, hstack, vstack; the ring of ldpc.protograph as documented | products of rows counted as pairs of monomials that meet (pairs_T: a and b^T the other way round), delta sums |
| C77 | PlotModel: what generate_plots and generate_plots_tn hand to matplotlib, panel by panel; curve_fit is a parameter, finite doubles are exact integers (multiples of 2^-1074) | sorting by linear orders is a function of the multiset; dictionaries determined by their lookups; grouping lemma for the nested loops |
| C78 | TextModel: texts as lists of characters; getline and istream >> int (classic locale, 32 bits), importGf2MatrixFromFile, the constructors of Code that take paths, getStringFrom, to_json/from_json of Code, DecodingResult, DecodingRunInformation (as JSON values, not their text; an exception leaves the fields replaced so far), the names of the enumerations in C++, JSON and Python | an inductive grammar of numbers and lines; the scanner is sound and complete for it (by length of the line); printing injective by a closing bracket; finite cases for names |
| C79 | SaveModel: the texts written by np.savetxt, save_code as a change of the file system, the parsing of info.txt (line, rfind, split, dict, int) and what _compute_distances records; what GAP prints is any text, its two scripts fix the keys | the grammar of C78 for rows; a grammar of info lines; dictionaries by their lookups |
| C80 | RunFilesModel: names of result files, runs as changes of a disk (directories and files by their texts; the outcome of a simulation is a parameter), the command line after parsing, generate_plots_comp with its colours | rounding and decimals are injective on the rounded rate; the last run that wrote a name; composition with C77; invariants of the dictionaries of colours along the directories |
| C81 | EvalModel (with from_code_name of C16, PropEvalCode): options as a list folded into settings, substring tests on the name, file names as texts, the procedures called as a record of parameters that may raise; the list of circuits in the package | induction on the options from the right; the file names by computation over all settings; the list of circuits by computation against every setting |
| C55-C56 | AnalogModel2 (run loop), StatsModel | real analysis of the rates; dictionary lemmas |

## Simplifications

* C++ `size_t` and Python/numpy integers are unbounded where they only index or count; int8 products modulo 2 are XORs
  (proved to agree, `StabProofs.idot_odd`), syndromes of `LutDecoder` keep their item size because it matters.
* Floats are rationals (comparisons and sums of C46, C53, C54) or reals (roots and powers, C55, C56): rounding, overflow and NaN are not modelled.
  Infinite bias is modelled.
* Random generators: only what is done with a draw, not its distribution.
* stim's and qiskit's circuits are lists of instructions; the global phase, barriers and register names are dropped where
  the comment says so.
* Pointers of TreeNode are indices into the list of all nodes.

## Not modelled

Command-line scripts and argument parsing (except what main of the Qiskit wrapper and the commands of the colour code decoder and of the estimation of preparation circuits do, C73, C80, C81), plotting (except the data of C77, C80), logging, pybind bindings (except the names of enumerations, C78); the text of JSON files (C67, C68 model files, paths and what a file decodes to; C78 the JSON values); the paper-evaluation scripts under `scripts/` (except lifted_hgp.py, C76); time measurement;
Bravyi-style `ldpc`, `bposd`, `pymatching` internals.

## Trusted base

* Coq 8.16.1's kernel including its virtual machine (`vm_compute` is used in proofs; coqchk re-checks them).
* What `Print Assumptions` lists for each theorem: see ASSUMPTIONS.md (generated by tools/assumptions.py).  All theorems are
  "Closed under the global context" except those of PropStats.v, PropVirtual.v, PropFiles.v/PropFiles2.v and PropWrap.v on real numbers (some of C55 and C56, C60, the merges of C67, the noise models of C73), which use the axioms of the standard
  library's reals: `ClassicalDedekindReals.sig_forall_dec`, `ClassicalDedekindReals.sig_not_dec`,
  `FunctionalExtensionality.functional_extensionality_dep` and `Classical_Prop.classic`.
* coqchk additionally reports, for the loaded library, module fields that it counts as axioms: `Coq.ssr.ssrunder.Under_rel.*`
  and the opaque symbols of `Coq.Reals.Rdefinitions` (`RbaseSymbolsImpl.*`, `RinvImpl.*`, `Rpower`-related constants of the
  library); none of them is ours.
* Kun.v uses mathcomp (matrices over F_2) for the Kunneth formula of C65; it brings no axioms (Print Assumptions of the C65
  theorems is empty).  coqchk lists the fields of mathcomp's sealed modules (`finset.SetDef`, `bigop.BigOp`, `fintype.CardDef`, `perm.PermDef`, ...), which
  have definitions behind the seal.
* No axiom, functor, module type, plugin or disabled check of our own.
* The reading of the source recorded in the comments of the model files, and the contracts above.

## Wrong programs

`seeded/LOG.jsonl` records edits of the model that imitate bugs, the theorems that then fail, and what was tightened.
