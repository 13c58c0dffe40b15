{"id": "C01", "title": "PLU rank is the rank over GF(2)", "statement": "Decomposing any GF(2) matrix given by column supports reports as rank the dimension of its row space (maximum number of linearly independent rows), and the reported pivot columns are linearly independent and span the column space.", "quantifier": "every row count, column count and every matrix given as in-range column supports", "why_tests_cant": "the rank is computed by a stateful in-place elimination with recorded swaps; a wrong index only shows on particular matrices of unbounded size", "anchors": ["include/GF2.hpp:PluDecomposition", "src/GF2.cpp:rref", "src/GF2.cpp:eliminateColumn"]}
{"id": "C02", "title": "luSolve solves every consistent system", "statement": "For every matrix M and right-hand side y of the right length that lies in the column space of M, luSolve returns a vector x with M x = y; a right-hand side of another length is rejected with an exception and nothing else is.", "quantifier": "every matrix, every right-hand side", "why_tests_cant": "needs forward/backward substitution to agree with the recorded elimination for every elimination history", "anchors": ["src/GF2.cpp:luSolve"]}
{"id": "C03", "title": "Row-space membership test is exact", "statement": "isVectorInRowspace(M, v) returns true exactly when v is a GF(2) linear combination of the rows of M, and throws exactly on a dimension mismatch.", "quantifier": "every matrix with at least one row and every vector", "why_tests_cant": "equivalence with an existential over exponentially many row combinations", "anchors": ["src/Utils.cpp:isVectorInRowspace", "src/Utils.cpp:toCsc", "src/Utils.cpp:getTranspose"]}
{"id": "C04", "title": "Matrix utilities obey their algebra", "statement": "getTranspose swaps indices and is an involution on rectangular matrices, rectMatrixMultiply is the GF(2) matrix-vector product and throws exactly on shape mismatch, computeResidualErr is the component-wise XOR and vanishes exactly on equal inputs.", "quantifier": "every rectangular matrix and vector", "why_tests_cant": "universally quantified algebraic laws", "anchors": ["src/Utils.cpp:getTranspose", "src/Utils.cpp:rectMatrixMultiply", "src/Utils.cpp:computeResidualErr"]}
{"id": "C05", "title": "Stabilizer test on C++ codes separates stabilizers from logical errors", "statement": "Code::isXStabilizer accepts an error iff it is a product of rows of the check matrix it is compared against, the syndrome is linear, every accepted error of a code with orthogonal check matrices has zero syndrome, and the verdict of isXStabilizer on residual = error XOR estimate is invariant under adding check rows to the estimate.", "quantifier": "every check matrix, error and estimate", "why_tests_cant": "membership in an exponentially large group", "anchors": ["include/Code.hpp:isXStabilizer", "include/Code.hpp:getXSyndrome", "include/Code.hpp:isStabilizer"]}
{"id": "C06", "title": "Pauli strings round-trip through the binary form", "statement": "For at least one qubit: is_pauli_string accepts exactly the non-empty strings with an optional sign over IXYZ; pauli_to_binary gives the X bits, the Z bits and the sign bit; binary_to_pauli_string(pauli_to_binary(p)) returns p up to an explicit leading '+', and pauli_to_binary(binary_to_pauli_string(b)) returns b for every vector b of odd length above one.  On zero qubits the round trip crashes.", "quantifier": "every string over IXYZ with optional sign, every binary vector", "why_tests_cant": "unbounded string lengths", "anchors": ["src/mqt/qecc/codes/stabilizer_code.py:pauli_to_binary", "src/mqt/qecc/codes/stabilizer_code.py:binary_to_pauli_string", "src/mqt/qecc/codes/stabilizer_code.py:is_pauli_string"]}
{"id": "C07", "title": "Commutation test agrees with Pauli multiplication", "statement": "commute(p,q) holds iff the Pauli operators satisfy PQ = QP, i.e. iff the number of qubits on which they differ and are both non-identity is even; all_commute is the conjunction over all pairs; get_syndrome(e)[i]=1 iff e anticommutes with generator i, and the syndrome of a product of errors is the XOR of the syndromes.", "quantifier": "every pair of n-qubit Paulis, every n, every generator list", "why_tests_cant": "quantifies over all lengths and operators", "anchors": ["src/mqt/qecc/codes/stabilizer_code.py:commute", "src/mqt/qecc/codes/stabilizer_code.py:symplectic_inner_product", "src/mqt/qecc/codes/stabilizer_code.py:get_syndrome"]}
{"id": "C08", "title": "stabilizer_equivalent decides equality up to stabilizers", "statement": "stabilizer_equivalent(p1, p2) should hold iff p1 p2 is a stabilizer.  It answers True iff the binary form of p2, or the XOR of the binary forms of p1 and p2, is in the span of the generators' binary forms: for CSS-type codes, two X-type or two Z-type operators and p2 not itself a stabilizer this is exact, sign included; otherwise it is not symmetric (a p2 that is a stabilizer is equivalent to everything) and can be wrong about signs.  A wrong length raises ValueError.", "quantifier": "every code, every pair of Paulis", "why_tests_cant": "equivalence classes are exponentially large; the relation must be reflexive, symmetric and transitive for all inputs", "anchors": ["src/mqt/qecc/codes/stabilizer_code.py:stabilizer_equivalent"]}
{"id": "C09", "title": "Equality of stabilizer codes", "statement": "Two StabilizerCode objects on equally many qubits compare equal iff their generators, as binary vectors with the sign column, span the same space, which is an equivalence relation and for CSS-type codes means the same signed stabilizer group.  In general it does not (XX,ZZ equals XX,YY but not XX,-YY).  Codes on different numbers of qubits compare unequal if the ranks differ and raise ValueError if they agree.", "quantifier": "every pair of generator lists", "why_tests_cant": "set equality of generated groups for all inputs", "anchors": ["src/mqt/qecc/codes/stabilizer_code.py:__eq__"]}
{"id": "C10", "title": "Constructor accepts only well-formed codes", "statement": "The constructor accepts a list of strings exactly when they are equally long Pauli strings, the distance is positive and given logicals are at most k of each kind, have the right length, commute with the generators and every logical Z anticommutes with exactly one logical X; then n is their length, k = n - rank and the generators are theirs.  Not true: accepted generators need not commute (X, Z gives k = -1), logicals need not pair up, a sign on only some generators is rejected or crashes, empty logical lists crash.", "quantifier": "every input of the constructor", "why_tests_cant": "all malformed inputs must be rejected", "anchors": ["src/mqt/qecc/codes/stabilizer_code.py:__init__", "src/mqt/qecc/codes/stabilizer_code.py:_check_stabilizer_generators", "src/mqt/qecc/codes/stabilizer_code.py:_check_code_correct"]}
{"id": "C11", "title": "CSSCode accepts exactly orthogonal check matrices", "statement": "With both matrices given, construction succeeds iff they have equally many columns, every X check overlaps every Z check evenly and the x/z distances are not below the distance; the resulting number of logical qubits is n - rank Hx - rank Hz and all generators commute.", "quantifier": "every pair of check matrices and distances", "why_tests_cant": "quantifies over all matrices", "anchors": ["src/mqt/qecc/codes/css_code.py:__init__", "src/mqt/qecc/codes/css_code.py:_check_valid_check_matrices"]}
{"id": "C12", "title": "Computed logical operators are a complete set", "statement": "The X (Z) logicals computed for a CSS code lie in the kernel of Hz (Hx), are independent modulo the X (Z) stabilizers, together with them span the whole kernel, and there are exactly n - rank Hx - rank Hz of them.", "quantifier": "every pair of orthogonal check matrices", "why_tests_cant": "a completeness claim over the whole kernel", "anchors": ["src/mqt/qecc/codes/css_code.py:_compute_logical"]}
{"id": "C13", "title": "Logical-error test on a zero-syndrome residual is exact", "statement": "For every residual with zero syndrome, check_if_logical_x_error returns False iff the residual is a product of X stabilizers (likewise for Z), so the verdict does not depend on the chosen logical representatives.", "quantifier": "every CSS code and every zero-syndrome residual", "why_tests_cant": "requires non-degeneracy of the pairing between computed logicals for every code", "anchors": ["src/mqt/qecc/codes/css_code.py:check_if_logical_x_error", "src/mqt/qecc/codes/css_code.py:check_if_logical_z_error"]}
{"id": "C14", "title": "Stabilizer membership and coset equality are exact", "statement": "check_if_x_stabilizer(v) iff v is in the row space of Hx; stabilizer_eq_x_error(a,b) iff a XOR b is a product of X stabilizers (likewise for Z).", "quantifier": "every CSS code, every pair of errors", "why_tests_cant": "rank arithmetic must match the group relation for every matrix", "anchors": ["src/mqt/qecc/codes/css_code.py:check_if_x_stabilizer", "src/mqt/qecc/codes/css_code.py:stabilizer_eq_x_error", "src/mqt/qecc/codes/css_code.py:stabilizer_eq_z_error"]}
{"id": "C15", "title": "is_self_dual means the X and Z stabilizer groups coincide", "statement": "is_self_dual() returns True iff Hx and Hz have equally many rows and the row space of Hz is contained in that of Hx; with independent rows on both sides that is equality of the X and Z stabilizer groups.  With redundant rows it can be wrong in both directions.", "quantifier": "every CSS code", "why_tests_cant": "all matrices, including ones with redundant checks", "anchors": ["src/mqt/qecc/codes/css_code.py:is_self_dual"]}
{"id": "C16", "title": "Named codes have their documented parameters", "statement": "Every code shipped under from_code_name has orthogonal check matrices, the documented number of qubits and logical qubits, and the recorded X and Z distances are the true minimum weights of nontrivial logical operators.", "quantifier": "all errors of weight below the distance, for each shipped code; all names", "why_tests_cant": "the distance quantifies over all low-weight operators and all stabilizer multiples", "anchors": ["src/mqt/qecc/codes/css_code.py:from_code_name", "src/mqt/qecc/codes/*/hx.npy", "src/mqt/qecc/codes/*/hz.npy"]}
{"id": "C17", "title": "Hexagonal color codes are valid CSS codes for every distance", "statement": "For every odd distance d>=3 and every enumeration order of qubits and faces the hexagonal color code is constructed, has (3d^2+1)/4 qubits, half as many (rounded down) independent checks of weight 4 or 6 that overlap evenly, one logical qubit and recorded distance d, a logical operator of weight d, adjacency lists that match the check matrix, and the codes of two enumeration orders differ by a permutation; the LightsOut decoder returns a least-weight correction for every error; and no logical operator is lighter than d.  An even distance d>=2 is accepted but gives a code on (3d^2+2d)/4 qubits that encodes nothing, although its recorded distance is d.  Not true of the code: check_if_logical_error never reports a logical error.", "quantifier": "every odd distance, every enumeration order of the Python sets", "why_tests_cant": "an infinite family of codes", "anchors": ["src/mqt/qecc/codes/hexagonal_color_code.py", "src/mqt/qecc/codes/color_code.py"]}
{"id": "C18", "title": "Square-octagon color codes are valid CSS codes for every distance", "statement": "For every odd distance d>=3 and every enumeration order the 4.8.8 code is constructed, has (d^2+2d-1)/2 qubits, half as many (rounded down) independent checks (squares of weight 4, octagons of weight 4 or 8) that overlap evenly, one logical qubit, recorded distance d, a logical operator of weight d, matching adjacency lists, and the enumeration order only permutes it; LightsOut returns a least-weight correction; and no logical operator is lighter than d.  Every even distance d>=2 raises.", "quantifier": "every odd distance, every enumeration order", "why_tests_cant": "an infinite family of codes", "anchors": ["src/mqt/qecc/codes/square_octagon_color_code.py"]}
{"id": "C19", "title": "Bivariate bicycle construction always yields commuting checks", "statement": "For every torus size l,m >= 1 and every list of exponents the check matrices are l*m by 2*l*m, their entries are the sums of cyclic shifts, X and Z checks are orthogonal and every check has at most as many ones as there are exponents, of the same parity; each supported length gives a code with the advertised n, k and distance entry; every other length raises InvalidCSSCodeError.", "quantifier": "all l, m, all exponent triples", "why_tests_cant": "an infinite family", "anchors": ["src/mqt/qecc/codes/bb_codes.py"]}
{"id": "C20", "title": "3D/4D homological product codes are chain complexes", "statement": "For every pair of classical (or CSS) matrices, the boundary maps produced by the 3D and 4D product constructions compose to zero, so the resulting Hx, Hz and meta-checks satisfy Hx Hz^T = 0 and the meta-check annihilates every valid syndrome.", "quantifier": "all input matrices satisfying the stated precondition", "why_tests_cant": "all sizes and matrices; Kronecker index arithmetic", "anchors": ["src/mqt/qecc/analog_information_decoding/code_construction/code_constructor.py", "src/mqt/qecc/analog_information_decoding/code_construction/sparse_code_constructor.py"]}
{"id": "C21", "title": "The SAT encoding of each light is exactly its parity", "statement": "For every light with at least two switches, the generated constraints are satisfiable by some value of the helper variables iff the parity of its switches equals the requested value, and different lights do not share helpers.", "quantifier": "every number of switches, every switch assignment, every syndrome bit", "why_tests_cant": "an equivalence over all assignments and arbitrary chain length", "anchors": ["src/mqt/qecc/cc_decoder/decoder.py:preconstruct_parity_constraint", "src/mqt/qecc/cc_decoder/decoder.py:complete_parity_constraint"]}
{"id": "C22", "title": "LightsOut returns a minimum-weight correction", "statement": "With an optimising solver honouring its contract, solve returns a smallest switch set that turns every light off whenever one exists, so every error is corrected up to a zero-syndrome residual that is no heavier; if none exists it raises AssertionError.  Not so afterwards: the failed constraints stay in the solver and every later call fails too.", "quantifier": "every light/switch graph, every syndrome", "why_tests_cant": "optimality over exponentially many corrections", "anchors": ["src/mqt/qecc/cc_decoder/decoder.py:solve", "src/mqt/qecc/cc_decoder/decoder.py:validate_model"]}
{"id": "C23", "title": "validate_model decides whether a switch set explains the lights", "statement": "validate_model(switches, lights) returns True iff toggling exactly the chosen switches turns every light off.", "quantifier": "every graph, every switch vector, every light vector", "why_tests_cant": "all graphs including switches repeated in several lights", "anchors": ["src/mqt/qecc/cc_decoder/decoder.py:validate_model"]}
{"id": "C24", "title": "The lookup table holds a minimum-weight error for every syndrome", "statement": "The generated table has an entry for exactly the syndromes of errors, each entry has that syndrome and no error with the same syndrome has smaller weight; decoding an error therefore leaves a zero-syndrome residual, and any error of weight below half the distance leaves a stabilizer.", "quantifier": "every check matrix and error", "why_tests_cant": "minimum over exponentially many errors", "anchors": ["src/mqt/qecc/ft_stateprep/simulation.py:_generate_lut", "src/mqt/qecc/ft_stateprep/simulation.py:decode_x", "src/mqt/qecc/ft_stateprep/simulation.py:decode_z"]}
{"id": "C25", "title": "LutDecoder answers regardless of the order of calls", "statement": "decode_x returns a least-weight estimate with the requested syndrome for every syndrome of an error, whatever calls were made before, also in a batch; so does decode_z for codes that are not self-dual and, if both matrices are the same, once an X table exists.  Not so: for self-dual codes decode_z before any X table raises KeyError, for self-dual codes with different matrices its answer has the wrong syndrome, and syndromes wider than int8 raise KeyError.", "quantifier": "every code and every call history", "why_tests_cant": "call-order dependence", "anchors": ["src/mqt/qecc/ft_stateprep/simulation.py:generate_x_lut", "src/mqt/qecc/ft_stateprep/simulation.py:generate_z_lut"]}
{"id": "C26", "title": "Union-Find forest invariants", "statement": "After any sequence of unions of vertices the forest is acyclic, Find returns the root reached along parents, two vertices have the same root iff they are connected by unions, the size stored at a root is the number of vertices in its tree and its check list holds exactly the checks of the tree; the smaller tree is attached to the larger one.", "quantifier": "every sequence of Find/Union operations", "why_tests_cant": "all histories", "anchors": ["include/TreeNode.hpp:Find", "include/TreeNode.hpp:Union", "include/TreeNode.hpp:addFirstToSecondTree"]}
{"id": "C27", "title": "UFDecoder components partition the visited nodes", "statement": "Each component computed from a node set is non-empty, duplicate-free, inside the set and connected within itself, and every node of the set is in or next to one.  It should be a partition into connected components; not so: a node can be in none of the components and in two of them.", "quantifier": "every Tanner graph and node set", "why_tests_cant": "traversal order dependent; holds or fails only on particular graphs", "anchors": ["src/UFDecoder.cpp:getConnectedComps"]}
{"id": "C28", "title": "A component estimate reproduces the component's syndrome", "statement": "For the syndrome of any error a component yields an estimate of distinct qubits, which satisfies every check in or next to the component whenever the component has an interior qubit (and is empty otherwise); decoding never throws (except with the random-qubit growth), a zero syndrome gives the zero estimate, and a single component with an interior qubit touching all checks gives the right syndrome.  Not so in general: decoding can finish with a wrong syndrome, and the estimate of a component can use qubits outside of it.", "quantifier": "every check matrix, syndrome and node set", "why_tests_cant": "all sub-systems of all matrices", "anchors": ["src/UFDecoder.cpp:getEstimateForComponent"]}
{"id": "C29", "title": "Growth is monotone and terminates or is flagged", "statement": "Growth only ever adds neighbours; with the all-components policy the node set strictly grows until it is closed, and decoding returns on every connected graph.  Not so: disconnected graphs, the InvalidComponents policy (always) and SingleSmallest can run forever, the random-qubit policy can dereference a null pointer.", "quantifier": "every graph, syndrome and growth policy", "why_tests_cant": "termination for all inputs", "anchors": ["src/UFDecoder.cpp:standardGrowth", "src/UFDecoder.cpp:doDecode", "include/Decoder.hpp:GrowthVariant"]}
{"id": "C30", "title": "Two-sided decoding uses the matrix matching each syndrome", "statement": "A one-sided code is decoded with its matrix; a two-sided code whose matrices are the same is decoded half by half.  Expected but not so: setCode swaps the X and Z matrices and decode uses one matrix for both halves, fails when the row counts differ, and returns the two halves of the estimate in the opposite order of the error.", "quantifier": "every two-sided code", "why_tests_cant": "only visible on codes with different X and Z matrices", "anchors": ["include/Decoder.hpp:setCode", "src/UFDecoder.cpp:decode", "src/UFHeuristic.cpp:decode"]}
{"id": "C31", "title": "Tanner-graph neighbours are the matrix incidences", "statement": "getNbrs(i) for a bit i<n lists exactly the checks (offset by n) containing it, for a check index n+j exactly the bits it contains, in increasing order, and any other index is rejected; the relation is symmetric; the cache never changes an answer.", "quantifier": "every matrix and every sequence of queries", "why_tests_cant": "all matrices and query histories", "anchors": ["include/Code.hpp:getNbrs"]}
{"id": "C32", "title": "Erasure decoding of a cluster peels to the syndrome", "statement": "The heuristic decoder returns on every syndrome whose flagged checks are not empty, for every growth policy but one and any iteration order, with distinct qubits, at most one of them in each flagged check, so that a flagged check is satisfied iff an estimated qubit touches it.  Not so: the estimate need not reproduce the syndrome (unflagged or untouched checks), depends on the iteration order, decoding again without reset goes wrong, and a flagged empty check runs forever.", "quantifier": "every cluster", "why_tests_cant": "all graphs", "anchors": ["src/UFHeuristic.cpp:erasureDecoder"]}
{"id": "C33", "title": "CNOT circuits from column operations prepare the code state", "statement": "For every CSS code, the heuristic circuit (Hadamards on one group of qubits followed by the recorded CNOTs in reverse) maps the initial product-state stabilizers to exactly the row space of the check matrix, i.e. prepares the logical zero/plus state.", "quantifier": "every check matrix", "why_tests_cant": "all codes and elimination histories", "anchors": ["src/mqt/qecc/ft_stateprep/state_prep.py:heuristic_prep_circuit", "src/mqt/qecc/ft_stateprep/state_prep.py:_build_circuit_from_list_and_checks"]}
{"id": "C34", "title": "Greedy column elimination terminates with tracked costs", "statement": "In every reachable state of the greedy elimination costs[i][j] = weight(ci+cj) - weight(cj) for all columns i,j; each step adds a CNOT that strictly reduces the number of ones and is the cheapest among unused columns, or starts a new layer; the CNOTs of a layer act on distinct qubits when depth is optimised; the loop ends for every code.", "quantifier": "every check matrix, optimisation flag", "why_tests_cant": "termination and an invariant over all steps", "anchors": ["src/mqt/qecc/ft_stateprep/state_prep.py:heuristic_prep_circuit"]}
{"id": "C35", "title": "Fault sets contain exactly the propagated single faults", "statement": "compute_fault_set for one error should contain, up to stabilizers, exactly the errors that one X (Z) fault anywhere in the CNOT circuit propagates to.  Every returned error is such a least-weight representative above the weight threshold and every fault behind a gate that has the qubit as its source (control for X, target for Z) is represented; faults before such a gate are initial faults of the qubit, which are trivial for one basis.  Not so: a fault on the other qubit of a CNOT that is later a source is missed for codes such as Shor's.", "quantifier": "every CNOT circuit", "why_tests_cant": "all circuits and fault locations", "anchors": ["src/mqt/qecc/ft_stateprep/state_prep.py:compute_fault_set", "src/mqt/qecc/ft_stateprep/state_prep.py:_propagate_error"]}
{"id": "C36", "title": "Fault combination covers all multi-fault errors", "statement": "compute_fault_set for j errors and combine_faults return, up to stabilizers and without lighter-than-threshold errors, exactly the sums of exactly j single faults or single-qubit errors (plus the additional faults), each represented once by a least-weight error when reduced; a computed set is returned from the cache; too large j, a distance too small or an empty circuit raise.", "quantifier": "every fault set and number of faults", "why_tests_cant": "all subsets", "anchors": ["src/mqt/qecc/ft_stateprep/state_prep.py:combine_faults", "src/mqt/qecc/ft_stateprep/state_prep.py:_remove_stabilizer_equivalent_faults", "src/mqt/qecc/ft_stateprep/state_prep.py:_remove_trivial_faults"]}
{"id": "C37", "title": "Coset leader is a minimum-weight representative", "statement": "The coset leader computed for an error differs from it by a stabilizer and has minimum weight in the coset.", "quantifier": "every error and generator set", "why_tests_cant": "minimum over an exponential coset", "anchors": ["src/mqt/qecc/ft_stateprep/state_prep.py:_coset_leader"]}
{"id": "C38", "title": "Verification stabilizers detect every dangerous fault", "statement": "Stabilizers returned by the verification search are products of the given checks, as many as asked for, of total weight within the bound, and every fault overlaps one of them in exactly one qubit (hence is detected); when the search reports none, no such set exists, and with one ancilla per fault and enough weight it succeeds; the optimal and the heuristic searches return layers that detect all faults of their fault sets; every measurement the heuristic chooses detects at least one of them.  Not so: a detecting set whose overlaps are odd but larger than one is not found.", "quantifier": "every fault set, every number and weight of measurements", "why_tests_cant": "soundness and completeness of a symbolic search", "anchors": ["src/mqt/qecc/ft_stateprep/state_prep.py:verification_stabilizers", "src/mqt/qecc/ft_stateprep/state_prep.py:_odd_overlap", "src/mqt/qecc/ft_stateprep/state_prep.py:_vars_to_stab"]}
{"id": "C39", "title": "Greedy set cover covers", "statement": "_set_cover returns a subfamily of the given sets that covers the universe and every returned set contributes; it terminates iff the family covers the universe.", "quantifier": "every universe and family", "why_tests_cant": "termination and coverage for all families", "anchors": ["src/mqt/qecc/ft_stateprep/state_prep.py:_set_cover", "src/mqt/qecc/ft_stateprep/state_prep.py:_covers"]}
{"id": "C40", "title": "Iterative search returns the smallest solvable parameter", "statement": "The iterative search terminates for positive parameters and returns a solution at some parameter in range, or none at the largest after running into a time-out or failure there; the bisecting search then returns a parameter whose predecessor failed or timed out, and without time-outs and for a monotone predicate the least solvable parameter, provided it is at least 2.  Not so: when 1 is solvable the search evaluates parameter 0 and crashes; min 0 or a time-out of 0 never end.", "quantifier": "every predicate, range and timeout behaviour", "why_tests_cant": "all search histories", "anchors": ["src/mqt/qecc/ft_stateprep/state_prep.py:iterative_search_with_timeout", "src/mqt/qecc/ft_stateprep/state_prep.py:_optimal_circuit"]}
{"id": "C41", "title": "Symbolic column-addition encoding is exact", "statement": "With a solver honouring its contract and independent checks, the bounded-gate (bounded-depth) synthesis returns a circuit with that many CNOTs (layers) preparing the code state, or None exactly when no circuit with at most so many exists; the optimal circuits have the least number that suffices (from 2 on).  Not so for redundant checks: every returned circuit prepares a wrong state.  Zero or negative bounds raise.", "quantifier": "every matrix size and number of steps", "why_tests_cant": "all models of the constraints", "anchors": ["src/mqt/qecc/ft_stateprep/state_prep.py:_column_addition_constraint", "src/mqt/qecc/ft_stateprep/state_prep.py:_final_matrix_constraint", "src/mqt/qecc/ft_stateprep/state_prep.py:_symbolic_vector_add"]}
{"id": "C42", "title": "Unflagged and flagged measurement gadgets measure the stabilizer", "statement": "Without faults, whenever measure_flagged builds a gadget, no flag can read 1, the state after ancilla outcome o is the projection of the data onto the (-1)^o eigenspace of the measured Z or X product, and each flag and the ancilla are measured into their own new bit. The unflagged gadget does so for every weight. Which weights and t are supported is exact, with the exception raised otherwise. Exception: with t=1 a stabilizer of weight one is not measured at all (the only CNOT is applied twice).", "quantifier": "every weight, every ordering, both bases", "why_tests_cant": "all weights of an inductively defined circuit", "anchors": ["src/mqt/qecc/ft_stateprep/state_prep.py:measure_flagged", "src/mqt/qecc/ft_stateprep/state_prep.py:_measure_stab_one_flagged"]}
{"id": "C43", "title": "One flag catches every dangerous hook error", "statement": "For every stabilizer of weight at least two, every single fault of the one-flag gadget (any Pauli on the qubits of any instruction, before or after it) leaves, whenever the flag reads 0, the fault-free state up to an error on at most one data qubit and a possibly flipped ancilla outcome.", "quantifier": "every weight and fault location", "why_tests_cant": "all weights", "anchors": ["src/mqt/qecc/ft_stateprep/state_prep.py:_measure_stab_one_flagged"]}
{"id": "C44", "title": "Two-flag gadgets tolerate two faults", "statement": "Whenever measure_flagged with t=2 returns a gadget, any one (two) faults leave at most one (two) erroneous data qubits unless a flag reads 1. It returns a gadget for the weights 1, 2, 4, 5, 6, 8 only, not for every weight. w_flag_pattern arranges 0..w-2 for even weights, and misses a position for odd ones.", "quantifier": "every weight", "why_tests_cant": "all weights and pairs of faults", "anchors": ["src/mqt/qecc/ft_stateprep/state_prep.py:measure_stab_two_flagged", "src/mqt/qecc/ft_stateprep/state_prep.py:w_flag_pattern"]}
{"id": "C45", "title": "Hook errors of the measured stabilizers", "statement": "The hook errors computed for a list of measured stabilizers are exactly those stabilizers with one qubit removed; each is equivalent to a single-qubit error. They are not the errors one ancilla fault can cause: the suffixes of length 2..w-2, which a single fault of the unflagged gadget does cause, are missing, also up to the stabilizer.", "quantifier": "every list of stabilizers", "why_tests_cant": "all stabilizers", "anchors": ["src/mqt/qecc/ft_stateprep/state_prep.py:_hook_errors"]}
{"id": "C46", "title": "The Monte Carlo simulation of a verified state preparation samples the right circuit and counts right", "statement": "The simulated circuit prepares what the given circuit prepares, with the documented noise after each operation; every verification measurement is one record and a sample is discarded exactly when one of them is 1; whatever errors occur, the syndrome read from a sample is the syndrome of its data, and a kept sample counts as a logical error exactly when the data corrected by a least-weight estimate is not a stabilizer; the acceptance rate is exact and the logical error rate is the mean of the batch rates. Not true of the code: a Hadamard on an unused qubit is lost unless the qubit's first CNOT is controlled by it; an ancilla measured three times breaks the number of data qubits; without at_least_min_errors one batch too many is reported; with it the loop may never end; the rate is not errors per accepted shot.", "quantifier": "every supported circuit, layering, noise strength, noise realisation, sample batch and stopping condition", "why_tests_cant": "the records, errors and batch outcomes are random and unbounded in number", "anchors": ["src/mqt/qecc/ft_stateprep/simulation.py:NoisyNDFTStatePrepSimulator", "src/mqt/qecc/ft_stateprep/simulation.py:logical_error_rate"]}
{"id": "C47", "title": "Encoded qubits and classical bits never collide", "statement": "In every ECC of the framework, every operation of the mapped circuit acts on distinct qubits of the declared register; the physical qubits of different logical qubits and the ancillas are pairwise distinct; apart from the input's own measurements Q3Shor, Q9Shor, Q5Laflamme and Q7Steane use only the classical bits they declare.  Not so: Q5Laflamme and Q7Steane exchange qubit and bit of a measurement (and can leave the register), Q9Surface and Q18Surface overwrite the input's classical bits when decoding.", "quantifier": "every code, number of logical qubits, input circuit, measure frequency", "why_tests_cant": "collisions depend on the number of qubits and the circuit; tests fix a few", "anchors": ["include/ecc/Ecc.hpp", "src/ecc/Ecc.cpp:initMappedCircuit", "src/ecc/Q7Steane.cpp:mapGate", "src/ecc/Q5Laflamme.cpp:mapGate", "src/ecc/Q9Surface.cpp:writeDecoding"]}
{"id": "C48", "title": "Each ECC corrects every single-qubit error it advertises", "statement": "For Q3Shor (X only), Q9Shor, Q5Laflamme, Q7Steane and Q9Surface: any operator on at most one qubit of each block, applied to any encoded state of any number of logical qubits, is undone by one round of measureAndCorrect for all measurement outcomes, up to a factor and the state of the ancillas; for Pauli errors some outcome has a non-zero factor.  Not so: Q18Surface never notices what happens to data qubits 17, 32 and 34, Q3Shor never notices phase flips.", "quantifier": "every encoded (also entangled) state, every error on at most one qubit per block, every measurement outcome, any number of logical qubits", "why_tests_cant": "states and errors are a continuum; simulation tests sample circuits", "anchors": ["src/ecc/Q3Shor.cpp:measureAndCorrect", "src/ecc/Q9Shor.cpp:measureAndCorrect", "src/ecc/Q7Steane.cpp:measureAndCorrectSingle", "src/ecc/Q5Laflamme.cpp:measureAndCorrect", "src/ecc/Q9Surface.cpp:measureAndCorrect", "src/ecc/Q18Surface.cpp:measureAndCorrect"]}
{"id": "C49", "title": "Encoding followed by decoding is the identity", "statement": "Q3Shor and Q9Shor: encoding maps any state of n qubits to the code, X and Z of a qubit to its logical X and Z, decoding reverses it and their composition is the identity up to a factor.  First encodings give logical zeros (Q3Shor, Q9Shor, Q7Steane; Q5Laflamme with one qubit), a round puts any state into the code, decoding turns the logical Z into Z of the first qubit (five codes).  Not so: the first encoding of Q9Surface and of Q5Laflamme with two qubits, and re-encoding a measured 1 with Q7Steane and Q5Laflamme.", "quantifier": "every state, measurement outcome and number of qubits", "why_tests_cant": "states are a continuum; tests compare counts of a few circuits", "anchors": ["src/ecc/Q3Shor.cpp", "src/ecc/Q9Shor.cpp", "src/ecc/Q7Steane.cpp", "src/ecc/Q5Laflamme.cpp", "src/ecc/Q9Surface.cpp"]}
{"id": "C50", "title": "Error-correction rounds follow the measure frequency", "statement": "Applying an ECC to a circuit of g gates without measurements inserts a correction round after every measureFrequency-th gate and one more at the end, then decodes exactly once; with measurements, decodings and encodings alternate, rounds happen only in the encoded state and the circuit ends decoded; every input gate occurs once and in order; the identity code returns the circuit.", "quantifier": "every circuit, frequency (0 included) and number of qubits", "why_tests_cant": "the schedule depends on the length and shape of the circuit", "anchors": ["src/ecc/Ecc.cpp:apply", "include/ecc/Id.hpp"]}
{"id": "C51", "title": "Multi-round parity-check matrix has the space-time structure", "statement": "For every H and number of rounds T, the multi-round matrix applied to (data errors, measurement errors) equals, round by round, H e_r + m_r + m_{r-1}; so an error history explains the difference syndromes iff noisy repeated measurement of the accumulated data error with measurement errors m_r gives that record, and every record is explained by some history.", "quantifier": "every H, every number of rounds, every error history", "why_tests_cant": "unbounded number of rounds", "anchors": ["src/mqt/qecc/analog_information_decoding/simulators/memory_experiment_v2.py:build_multiround_pcm", "src/mqt/qecc/analog_information_decoding/simulators/memory_experiment_v2.py:decode_multiround"]}
{"id": "C52", "title": "Overlapping-window decoding commits consistently", "statement": "After each window the committed correction is the accumulated data correction of the first half and the syndrome record carried over is the old record XOR the contribution of the committed correction exactly when the time correction of the middle round is zero; the last window commits the whole correction and leaves a zero syndrome when the decoder explains it.  A sample decodes the windows in order, its residual is error XOR committed corrections.  Not so: a non-zero time correction at the window boundary is dropped; rounds beyond the last full window, and runs shorter than a window, are never decoded; hard syndromes raise UnboundLocalError.", "quantifier": "every window, every decoder output consistent with its syndrome", "why_tests_cant": "all histories", "anchors": ["src/mqt/qecc/analog_information_decoding/simulators/memory_experiment_v2.py:decode_multiround", "src/mqt/qecc/analog_information_decoding/simulators/memory_experiment_v2.py:move_syndrome"]}
{"id": "C53", "title": "Analog Tanner graph adds exactly one virtual bit per check", "statement": "The analog matrix [H|I] accepts (e,v) for a syndrome s iff v = s XOR H e, so every syndrome is explainable; the first n bits are decoded as data; the single-stage matrix [H I; 0 M] accepts iff additionally the meta-checks hold; thresholding an analog syndrome gives the sign bits; in a sample the decoder gets exactly the syndrome and the log-likelihood ratios.  A sample counts as success iff the residual commutes with the logicals, also outside the code space; zero noise is rejected.", "quantifier": "every H, syndrome", "why_tests_cant": "all matrices", "anchors": ["src/mqt/qecc/analog_information_decoding/simulators/analog_tannergraph_decoding.py:get_analog_pcm", "src/mqt/qecc/analog_information_decoding/utils/simulation_utils.py:build_single_stage_pcm"]}
{"id": "C54", "title": "Error generation respects its masks", "statement": "generate_err XORs into each qubit an X, Z or both, chosen by where one uniform draw falls among disjoint intervals of the three probabilities, and with probability zero leaves the residual unchanged; generate_syndr_err flips exactly the positions whose draw is below their probability; error_channel_setup splits the rate by the bias so that the sum is the rate; is_logical_err holds iff the residual overlaps a logical oddly, check_logical_err_h iff it raises the rank of H.", "quantifier": "every random draw and residual", "why_tests_cant": "all random draws", "anchors": ["src/mqt/qecc/analog_information_decoding/utils/simulation_utils.py:generate_err", "src/mqt/qecc/analog_information_decoding/utils/simulation_utils.py:generate_syndr_err", "src/mqt/qecc/analog_information_decoding/utils/simulation_utils.py:error_channel_setup", "src/mqt/qecc/analog_information_decoding/utils/simulation_utils.py:is_logical_err"]}
{"id": "C55", "title": "Convergence detection", "statement": "The word error rate is the per-logical-qubit rate giving the logical error rate; is_converged is True iff on both sides some but not all samples succeeded and the relative error bar is below the precision; so without failures a run never converges; the run loop counts samples and successes exactly.  Not so: the error bar of the word error rate is the propagated one only for one logical qubit; a run with no sample raises UnboundLocalError, and with a save interval of one convergence never stops the run.", "quantifier": "every pair of error bars", "why_tests_cant": "chained comparison semantics over all inputs", "anchors": ["src/mqt/qecc/analog_information_decoding/utils/data_utils.py:is_converged", "src/mqt/qecc/analog_information_decoding/utils/data_utils.py:_check_convergence"]}
{"id": "C56", "title": "Merging simulation results preserves totals", "statement": "Merging results that have the counts adds runs and successes and recomputes rates and error bars from the totals, keeps every other entry of the first result and does not depend on the order; a count missing in the first result is a KeyError.  Combining X and Z results gives the totals of each side if no result holds both; otherwise the X entries of the first result overwrite the X totals.", "quantifier": "every list of data sets", "why_tests_cant": "all orders and groupings", "anchors": ["src/mqt/qecc/analog_information_decoding/utils/data_utils.py:merge_datasets", "src/mqt/qecc/analog_information_decoding/utils/data_utils.py:_combine_xz_data"]}
{"id": "C57", "title": "Logical operations act as documented", "statement": "The circuit for a Pauli gate acts as this gate on the encoded qubit (Q3Shor, Q9Shor, Q5Laflamme, Q7Steane, Q9Surface), Q7Steane also for H, S, S-dagger, T, T-dagger, and controlled X (Q3Shor, Q7Steane, Q9Shor) and controlled Z (Q3Shor, Q7Steane), up to a factor, on every encoded state.  Not so, although ticked in the documentation: S, S-dagger, T, T-dagger of Q3Shor, controlled Y of Q3Shor and Q7Steane (controlled -Y), controlled Y and Z of Q9Shor and the Hadamard gate of Q9Surface (leave the code), controlled gates of Q9Surface and H of Q3Shor (throw), X and Z of Q18Surface (commute).", "quantifier": "every encoded state of any number of logical qubits, every target and control", "why_tests_cant": "states are a continuum and the documentation's table ranges over all of them", "anchors": ["src/ecc/Q3Shor.cpp:mapGate", "src/ecc/Q9Shor.cpp:mapGate", "src/ecc/Q5Laflamme.cpp:mapGate", "src/ecc/Q7Steane.cpp:mapGate", "src/ecc/Q9Surface.cpp:mapGate", "src/ecc/Q18Surface.cpp:mapGate", "docs/EccFramework.rst"]}
{"id": "C58", "title": "A transformed program computes what the program computes, in spite of errors", "statement": "Let a circuit of X, Y, Z, measurements and controlled X (for Q3Shor also controlled Z) be transformed with Q3Shor (from qubits that are all 0) or Q9Shor (from any input state), with any measure frequency, and let before each correction round an error strike at most one qubit of each block (for Q3Shor combinations of identity and X, for Q9Shor arbitrary operators).  Then apply succeeds, and for all outcomes the transformed circuit ends in the state in which the original circuit ends with the same measurement outcomes, up to a factor that depends only on the outcomes of the code's own measurements (so that measurement outcomes keep their probabilities) and the state of the ancillas, and with the same classical bits; if the errors are gates the factor is not 0 for some outcomes.  Not so for Q3Shor with other inputs: a qubit that is 1 at the beginning is taken for an error.", "quantifier": "every such circuit (mid-circuit measurements included), frequency, number of qubits, initial state, sequence of errors and outcomes", "why_tests_cant": "states, errors and programs are unbounded; tests compare counts of a few circuits", "anchors": ["src/ecc/Ecc.cpp:apply", "src/ecc/Q3Shor.cpp", "src/ecc/Q9Shor.cpp"]}
{"id": "C59", "title": "Single-shot simulation", "statement": "For every history of draws and every behaviour of the decoders in the noisy rounds: every round starts from the residual error of the one before; each noisy round adds fresh errors that depend on the draws only, and what is decoded depends on the noisy syndrome only; with two-stage hard decoding the residual syndrome is the difference between flipped and repaired checks, which meta checks cannot see (without meta checks: the flips), and likewise with single-stage decoding on the analog Tanner graph or with the analog-information decoder; with a final decoder that explains its syndrome and given logical operators the two flags of a sample say exactly whether the residual X and Z errors are non-trivial.  Not true of the code: run never returns (it writes to a file opened for reading); single-stage decoding of hard syndromes always fails with AttributeError; analog decoding without syndrome noise decodes the complement of the syndrome; two-stage analog decoding without meta checks truncates instead of thresholding, and swaps the X and Z probabilities; without logical operators the flags do not depend on the residual error.", "quantifier": "every code, meta code, channel, list of draws, decoder behaviour, number of rounds and samples", "why_tests_cant": "decoder behaviours and draws are unbounded; the defects hold for every input", "anchors": ["src/mqt/qecc/analog_information_decoding/simulators/simulation.py:SingleShotSimulator"]}
{"id": "C60", "title": "Reliabilities of the virtual nodes", "statement": "For sigma>0 every virtual node is initialised with a probability in (0, 1/2] whose log-likelihood ratio is 2|y|/sigma^2, so that it decreases with |y| and ignores the sign; for sigma<=0 all are 0.", "quantifier": "every analog syndrome and sigma", "why_tests_cant": "real-valued inputs", "anchors": ["src/mqt/qecc/analog_information_decoding/utils/simulation_utils.py:get_virtual_check_init_vals", "src/mqt/qecc/analog_information_decoding/utils/simulation_utils.py:get_analog_llr"]}
{"id": "C61", "title": "Word error rates of the decoding simulator", "statement": "simulateWER visits the rates min, min+step, ... below max and the raw-data file gets one entry per printed rate and no other: failures / runs / k of the first rate printed so, a run being a failure iff the sampled error and the decoder's answer to its syndrome differ by more than a product of checks (a success always restores the syndrome); with the heuristic decoder it completes on every two-sided code, with the union-find decoder on every connected one.  Not so: no constructor sets k, so the entries are infinite or undefined; one-sided codes raise; rates that agree in six decimals share an entry; the statistics file never closes four of its brackets.", "quantifier": "every code, error sample, decoder choice, rate range, number of runs", "why_tests_cant": "quantifies over all random draws and all rate ranges", "anchors": ["src/DecodingSimulator.cpp:simulateWER", "include/Code.hpp:getK", "include/Decoder.hpp:setCode"]}
{"id": "C62", "title": "Average runtimes of the decoding simulator", "statement": "simulateAverageRuntime writes, for each code file and each run, the decoding time divided by the number of samples; with one run this is the average, rounded down; the chosen decoders decode every sample (connected graph or heuristic).  Not so: the time of earlier runs is counted again, so run j of equally slow decodings reports j+1 times their duration; a file that is no code drops every later file; no samples kills the program.", "quantifier": "every directory of codes, all decoding times, numbers of runs and samples", "why_tests_cant": "quantifies over all timings and failure positions", "anchors": ["src/DecodingSimulator.cpp:simulateAverageRuntime"]}
{"id": "C63", "title": "Monte-Carlo logical error rate of the LightsOut decoder", "statement": "With the built-in solver, simulate_error_rate on a hexagonal (odd distance) or square-octagon code terminates normally; the reported logical error rate is the fraction of the samples whose residual (error XOR estimate) is not a stabilizer, no sample with fewer than d/2 flips counts, the reported minimum weight is -1 if no sample failed and otherwise the least residual weight of a failed sample (at least d), and the reported construction and solving times are the means over the samples.  Not so: with an external solver the estimate is always empty and the rate is reported as 0 whatever the errors; for an even hexagonal distance nothing is reported; zero samples give undefined rates.  code_from_string builds the named lattice and raises ValueError for every other name.", "quantifier": "every odd/even distance, enumeration order of the lattice, solver, list of sampled errors and list of measured times", "why_tests_cant": "all distances and all sampled error lists; the rate aggregates over an unbounded number of samples decoded on one mutated solver state", "anchors": ["src/mqt/qecc/cc_decoder/decoder.py:simulate_error_rate", "src/mqt/qecc/cc_decoder/__init__.py:code_from_string"]}
{"id": "C64", "title": "Hash and equality of codes", "statement": "Python requires equal objects to have equal hashes.  Colour codes satisfy it (equality is equality of the check matrix).  Stabilizer codes do not: == compares the generated groups but the hash reads the generator list and its dtype, so two equal codes with reordered (or differently typed) generators have different hashes; a set keeps both and a dictionary lookup misses.  What holds: a lookup only ever returns a code that generates the same group, and an object built from the same generators with the same dtype is always found; a colour code equals the CSS code of its matrix on either side of ==; == is not transitive between colour codes with different enumeration orders and the CSS codes in between.", "quantifier": "all generator lists, dtypes, enumeration orders and hash tables", "why_tests_cant": "the contract quantifies over all pairs of objects and all hash functions of byte strings; the failing pairs are equal as groups", "anchors": ["src/mqt/qecc/codes/stabilizer_code.py:__hash__", "src/mqt/qecc/codes/stabilizer_code.py:__eq__", "src/mqt/qecc/codes/color_code.py:__hash__", "src/mqt/qecc/codes/color_code.py:__eq__"]}
{"id": "C65", "title": "Product codes written to disk by create_code", "statement": "The 4D create_code succeeds for every four seeds when the 2D product has commuting checks (the hypergraph product always has); the saved matrices hx, hz commute, the meta-checks annihilate them and, if requested, the saved logical operators are complete and independent, n - rank hx - rank hz on each side.  For the hypergraph product of seeds with kernel dimensions k_i and cokernel dimensions t_i this number is (k0 t1 t2 + (k0 k1 + t0 t1) k2) t3 + ((k0 k1 + t0 t1) t2 + t0 k1 k2) k3 in 4D and (k0 k1 + t0 t1) t2 + t0 k1 k2 in 3D, so toric codes of rings of any lengths have six and three logical qubits.  An unknown constructor is a ValueError, missing seeds and non-commuting checks are rejected, all before anything is written.  Not so for the sparse (3D) version: with compute_distance=False it always ends in an AttributeError, never stores the parameters, and saves the matrices only if logical operators were requested.", "quantifier": "every four (three) seed matrices, every hypergraph-product routine with commuting checks, every rank/kernel library meeting its contract", "why_tests_cant": "all seed matrices of all sizes; saved matrices are too large for exhaustive checks even for small seeds", "anchors": ["src/mqt/qecc/analog_information_decoding/code_construction/code_constructor.py:create_code", "src/mqt/qecc/analog_information_decoding/code_construction/code_constructor.py:_compute_logicals", "src/mqt/qecc/analog_information_decoding/code_construction/sparse_code_constructor.py:create_code", "src/mqt/qecc/analog_information_decoding/code_construction/sparse_code_constructor.py:_store_code_params"]}
{"id": "C66", "title": "Verified state preparation circuits as a whole", "statement": "A verified state preparation circuit (heuristic_verification_circuit, gate_optimal_verification_circuit, naive_verification_circuit on a heuristic preparation circuit) is the preparation followed by measurements of ancilla and flag qubits into one classical bit each.  For every Pauli error between the two, each of these bits has a certain value: it tells whether the error anticommutes with the product of checks measured, flags read 0, and the data is left in the prepared state with that error and nothing else.  Without an error every bit reads 0 and the prepared state comes out.  If all bits can read 0 although the error is a combination of j <= max_errors faults of the preparation (for the second layer: or hook errors of the first), some stabilizer makes it at most j * max_weight heavy.  The heuristic search always ends, with a circuit or, for the second layer, with the exception of a gadget that is not implemented.  Two provisos: a product of weight one in the second layer is not measured when one error is corrected, and the gate-optimal search silently leaves a layer out when it finds nothing.", "quantifier": "every CSS code, heuristic preparation circuit, state, iteration order, SAT/optimizer answers, history of calls, every Pauli error (both parts) and number of combined faults", "why_tests_cant": "all Pauli errors on all states of all codes; amplitudes of every basis state for every outcome list", "anchors": ["src/mqt/qecc/ft_stateprep/state_prep.py:_verification_circuit", "src/mqt/qecc/ft_stateprep/state_prep.py:heuristic_verification_circuit", "src/mqt/qecc/ft_stateprep/state_prep.py:gate_optimal_verification_circuit", "src/mqt/qecc/ft_stateprep/state_prep.py:naive_verification_circuit", "src/mqt/qecc/ft_stateprep/state_prep.py:_measure_ft_stabs"]}
{"id": "C67", "title": "Collecting result files", "statement": "merge_json_files on an absolute folder writes, next to it, one entry for every subfolder that holds readable results: the counts are the sums over the readable .json files of the subfolder, rates and error bars those of the sums; files that do not decode are left out; nothing else changes, and over all entries every run is counted exactly once.  load_data rebuilds a file that does not decode from the folder of its name in this way.  With a relative folder (or file name) the path is joined with itself: nothing is found, the output is overwritten by an empty list and load_data returns it; with '.' the call raises as soon as a subfolder has a .json file.", "quantifier": "every file system, every order in which a directory is listed, every set of result dictionaries, readable or not", "why_tests_cant": "all file systems with any number of folders, files and broken files", "anchors": ["src/mqt/qecc/analog_information_decoding/utils/data_utils.py:merge_json_files", "src/mqt/qecc/analog_information_decoding/utils/data_utils.py:merge_json_files_x", "src/mqt/qecc/analog_information_decoding/utils/data_utils.py:merge_json_files_z", "src/mqt/qecc/analog_information_decoding/utils/data_utils.py:merge_json_files_xz", "src/mqt/qecc/analog_information_decoding/utils/data_utils.py:load_data"]}
{"id": "C68", "title": "Output files under concurrency and crashes", "statement": "create_outpath ends and returns the path of the first free identifier from the given one on, creates that file empty and changes nothing else; calls one after the other never return the same file.  When any number of processes look for output files and write results at the same time, in every interleaving and wherever processes stop, nothing that existed before is changed; two processes get the same file only if both looked before either created it - which can happen, and then one process's results replace the other's.  A file that a process has to itself holds the last result completely written; before the first and during a later write it does not decode (an interrupted save loses the earlier result).  Two settings share a folder exactly when they agree in what the folder records; with x_sigma and z_sigma the file lands outside the directory made for it.", "quantifier": "every file system, settings and identifiers, every number of processes, every schedule and every crash point", "why_tests_cant": "all interleavings of all processes, all crash points, all file systems", "anchors": ["src/mqt/qecc/analog_information_decoding/utils/data_utils.py:create_outpath", "src/mqt/qecc/analog_information_decoding/utils/simulation_utils.py:save_results", "src/mqt/qecc/analog_information_decoding/simulators/analog_tannergraph_decoding.py:AnalogTannergraphDecoder"]}
{"id": "C69", "title": "Parameter grids and settings files", "statement": "product_dict yields every choice of one value per key, as often as the lists contain it; zip_dict yields as many dictionaries as the shortest list has values, the i-th with the i-th value of every key, and none without keys; extract_settings lists for every keyword of a settings file its distinct values in order of first appearance; BpParams.from_dict gives every field the value of the dictionary or its default and ignores other entries.", "quantifier": "every dictionary of lists, every settings file, every dictionary of parameters", "why_tests_cant": "all numbers of keys and values", "anchors": ["src/mqt/qecc/analog_information_decoding/utils/data_utils.py:product_dict", "src/mqt/qecc/analog_information_decoding/utils/data_utils.py:zip_dict", "src/mqt/qecc/analog_information_decoding/utils/data_utils.py:extract_settings", "src/mqt/qecc/analog_information_decoding/utils/data_utils.py:BpParams"]}
{"id": "C70", "title": "One fault anywhere in a verified state preparation circuit", "statement": "Take the circuit returned by heuristic_verification_circuit (or by gate_optimal_verification_circuit when its searches found measurements) for a heuristic preparation circuit, and one Pauli fault on the qubits of one of its instructions, directly before or after it: in the preparation, in the measurements of either layer, on data, ancilla or flag qubits.  If all measurements can read 0, the data is left in the prepared state with an error whose part of the type verified first (X for the zero state) some stabilizer brings down to weight max_weight, and with full fault tolerance the other part too.  Provisos: the faults before the first CNOT, which the library's fault sets leave out, are light or equivalent to one in the set; for full fault tolerance the operators measured first have weight at most 2*max_weight+1 (hook errors are not searched for properly, see C45), and no stabilizer of weight one is measured second.", "quantifier": "every CSS code, heuristic preparation circuit, state, iteration order, SAT/optimizer answers, history of calls, every place in the circuit and every Pauli fault there", "why_tests_cant": "all fault places and Paulis in all circuits for all codes; amplitudes of every basis state", "anchors": ["src/mqt/qecc/ft_stateprep/state_prep.py:_verification_circuit", "src/mqt/qecc/ft_stateprep/state_prep.py:heuristic_verification_circuit", "src/mqt/qecc/ft_stateprep/state_prep.py:gate_optimal_verification_circuit", "src/mqt/qecc/ft_stateprep/state_prep.py:_measure_ft_stabs", "src/mqt/qecc/ft_stateprep/state_prep.py:_measure_ft_x", "src/mqt/qecc/ft_stateprep/state_prep.py:_measure_ft_z"]}
{"id": "C71", "title": "Reading an alist file", "statement": "alist2numpy returns, for every file in the format (a line with the numbers of rows and columns, three lines that are skipped, then one line of 1-based column numbers for each row; blank lines do not count), the 0/1 matrix whose row i has ones exactly in the listed columns.  A padding zero in a row, as many alist files have them, sets the last column; a file never describes a zero row (blank lines are skipped); a column number out of range is an error.", "quantifier": "every text, every matrix and every arrangement of its rows", "why_tests_cant": "all files of all sizes, including padded and malformed ones", "anchors": ["src/mqt/qecc/analog_information_decoding/utils/simulation_utils.py:alist2numpy"]}
{"id": "C72", "title": "Channel probabilities of the analog decoders in every history", "statement": "An AnalogTannergraphDecoder decodes every syndrome with the error channel of its constructor for the data bits and the values of the present analog syndrome for the virtual bits, whatever was decoded before.  In a sample of the quasi-single-shot simulation with analog syndromes, window j of 2T rounds is decoded with the data channel for each round and the values of exactly the syndromes measured in rounds jT..jT+2T-1, the last window with a tiny value for its last round, for either decoder and whatever earlier samples did; the channel has one entry per column of the multi-round matrix.  With hard syndromes and the BP+OSD decoder the history matters: after one last round every later window is decoded with the tiny value too (a matching decoder is not affected).", "quantifier": "every code, channel, window, number of rounds and samples, sequence of syndromes and calls", "why_tests_cant": "state kept in the decoder object between calls; all histories and lengths", "anchors": ["src/mqt/qecc/analog_information_decoding/simulators/memory_experiment_v2.py:decode_multiround", "src/mqt/qecc/analog_information_decoding/simulators/memory_experiment_v2.py:get_updated_decoder", "src/mqt/qecc/analog_information_decoding/simulators/quasi_single_shot_v2.py:QssSimulator", "src/mqt/qecc/analog_information_decoding/simulators/analog_tannergraph_decoding.py:AnalogTannergraphDecoder"]}
{"id": "C73", "title": "The Qiskit wrapper: noise model, printed results, export", "statement": "create_noise_model succeeds exactly for non-empty strings over B, D, A, P and reports the first other character.  The error acts on every qubit of exactly the listed gates (not on x, y, z, cz, ccx, measurements); it is the composition of the letters in their order; without A it depends on the numbers of the letters only (closed form), with A the order matters (AB and BA differ for every 0 < p <= 1); it maps states to states for 0 <= p <= 1 and is the identity for p = 0.  print_simulation_results prints states of the register declared first in increasing order, each with its number of shots, at most 1000; every state above the threshold is printed unless 1000 smaller ones are; the smallest state is printed even below the threshold; with threshold 0 and at most 1000 states the numbers add up.  main exports exactly the circuit it would simulate, with measurements, and checks the noise letters exactly when the probability is positive.", "quantifier": "every string, probability, Bloch vector, gate name, table of counts, number of shots, threshold, circuit", "why_tests_cant": "all strings of letters, real probabilities and states; all tables of counts", "anchors": ["src/mqt/qecc/ecc_qiskit_wrapper.py:create_noise_model", "src/mqt/qecc/ecc_qiskit_wrapper.py:compose_error", "src/mqt/qecc/ecc_qiskit_wrapper.py:print_simulation_results", "src/mqt/qecc/ecc_qiskit_wrapper.py:main"]}
{"id": "C74", "title": "How many errors a preparation is made safe against, and switching between correction and detection", "statement": "max_errors, max_x_errors, max_z_errors are the largest t with 2t < d for correction and with 2t <= d for detection (asked for, or distance two).  What at most max_errors faults may leave behind (weight max_weight for each) is harmless for a code of the stated distances: for correction two such errors with the same syndrome differ by a stabilizer, for detection such an error without syndrome is a stabilizer.  set_error_detection can be called at any time: after any sequence of such calls and computations of fault sets the object behaves like a new one with the last flag, and fault sets computed then are those of C36 for that flag.", "quantifier": "every CSS code, circuit, state, error type, pair of errors, sequence of operations", "why_tests_cant": "all codes and errors; histories of calls that share caches", "anchors": ["src/mqt/qecc/ft_stateprep/state_prep.py:StatePrepCircuit.set_error_detection", "src/mqt/qecc/ft_stateprep/state_prep.py:StatePrepCircuit._set_max_errors", "src/mqt/qecc/ft_stateprep/state_prep.py:StatePrepCircuit.compute_fault_set"]}
{"id": "C75", "title": "The cost of gate-optimal verification", "statement": "Without time-outs gate_optimal_verification_stabilizers always comes to an end.  It returns [] only if for some number of errors no list of at most max_ancillas products of checks, with no more CNOTs than all checks take together, meets every dangerous error in exactly one qubit; this never happens for the default max_ancillas when dangerous errors are equivalent to errors on at most two qubits.  Otherwise each layer has at most max_ancillas measurements, none of them trivial, the fewest CNOTs among all such lists with as many ancillas or fewer, the fewest ancillas among all with as many CNOTs or fewer, and less than twice the fewest CNOTs possible (or no more than the lightest check).  gate_optimal_verification_circuit ends as well.  Not so: the number of CNOTs need not be the least possible within max_ancillas.", "quantifier": "every CSS code, circuit, error type, additional faults, max_ancillas, solver that answers rightly (whichever of several right answers), history of calls", "why_tests_cant": "minimality over all sets of measurements and all answers of the solver", "anchors": ["src/mqt/qecc/ft_stateprep/state_prep.py:gate_optimal_verification_stabilizers", "src/mqt/qecc/ft_stateprep/state_prep.py:verification_stabilizers", "src/mqt/qecc/ft_stateprep/state_prep.py:gate_optimal_verification_circuit", "src/mqt/qecc/ft_stateprep/state_prep.py:iterative_search_with_timeout"]}
{"id": "C76", "title": "Lifted product codes", "statement": "LiftedHgp of any two protographs and any lift gives binary matrices [a x I | I x b^T] and [I x b | a^T x I] of the documented sizes in which every X check meets every Z check an even number of times; checks are as heavy as their row of a and column of b have monomials, whatever the lift (exactly, if exponents within an entry differ modulo the lift); lift one is the hypergraph product of the monomial counts modulo 2.  BiasTailoredLiftedProduct gives pairwise commuting checks when there are as many X as Z checks, and raises ValueError otherwise, although the code exists.", "quantifier": "every pair of protographs (entries: any sums of monomials, any shapes) and lift", "why_tests_cant": "all protographs, sizes and lifts", "anchors": ["scripts/numerics/code_construct/lifted_hgp.py:LiftedHgp", "scripts/numerics/code_construct/lifted_hgp.py:BiasTailoredLiftedProduct"]}
{"id": "C77", "title": "The figures of the colour code decoder show the measured points", "statement": "generate_plots draws, for each distance and logical operator, one curve with every result file exactly once - error rate, logical error rate and error bar of the same result - from left to right, likewise the decoding times, and over the distance the results at the chosen error rates at their own distances; what is drawn (or the exception) does not depend on the order in which the directory lists the files, as long as results for the same distance and error rate agree and the fit does not depend on the order of its samples.  The fit gets exactly the results strictly between the bounds.  The figures are drawn if there are one to four operators, a result at 0.01, and every distance or none has been measured at each chosen rate; otherwise it raises.  generate_plots_tn likewise.  Not so: the threshold panels of the operators 1, 2, 3 show and fit operator 0; a second result for one distance can be drawn at another distance.", "quantifier": "every list of result files (any distances, error rates, repetitions, order), list of chosen error rates, bounds, fit", "why_tests_cant": "all sets of files and all orders in which a directory can be listed", "anchors": ["src/mqt/qecc/cc_decoder/plots.py:generate_plots", "src/mqt/qecc/cc_decoder/plots.py:calculate_threshold", "src/mqt/qecc/cc_decoder/plots.py:plot_ler_vs_distance", "src/mqt/qecc/cc_decoder/plots.py:generate_plots_tn"]}
{"id": "C78", "title": "Check matrices and results as text", "statement": "A file of lines of numbers is read as the matrix of these lines (entry 1 iff the number is not 0), whatever the blanks, tabs, carriage returns and signs, with or without a final newline, and a matrix written so is read back.  What is not a number, or is no int, ends its line in silence: every line is read as its longest front of separate numbers; a row with commas is read as its first entry, a row without separators as one entry (none when it is longer than ten digits and starts with 1).  Code(path) makes the code of the matrix when the first line has an entry and otherwise throws QeccException (two files: also when the first lines differ in length; nothing else is compared); a blank line at the end gives a code whose every syndrome throws.  Printed vectors and printed rectangular matrices differ when they differ, but a printed matrix is not read back.  The records of decoding results cannot be read from the JSON they write (an exception, after some fields were replaced); the numbers of a code can.  The names of enumerations in JSON are not those of the FromString functions, an unknown name in JSON is the first value (so FAILURE is read as success), and in Python the members of DecodingResultStatus have the names of two growth variants and hide them in the module.", "quantifier": "every text, matrix (ragged ones included), file system, code, result record, JSON value and name", "why_tests_cant": "all texts and matrices", "anchors": ["src/Utils.cpp:importGf2MatrixFromFile", "src/Utils.cpp:getStringFrom", "include/Code.hpp:ParityCheckMatrix", "include/Code.hpp:Code", "include/Decoder.hpp:DecodingResult", "include/Decoder.hpp:growthVariantFromString", "include/DecodingRunInformation.hpp:DecodingRunInformation", "include/DecodingSimulator.hpp:decoderTypeFromString", "src/python/bindings.cpp:PYBIND11_MODULE"]}
{"id": "C79", "title": "Saved codes and computed distances can be read", "statement": "A matrix written by np.savetxt with fmt %i is read by importGf2MatrixFromFile as the matrix of its non-zero entries, and a code saved by save_code is, read from its two files by the C++ constructor, the code of these matrices; no other file is changed.  What the distance script printed is read as its key = value lines (comments and blank lines apart, the last value of a key counts), and the 3D function records n, n - rank hx - rank hz, dX and dZ.  Not so in 4D: the script prints dMx and dMz, the function wants dMX and dMZ, so that it raises KeyError for every code and records nothing.  A last line without a newline and without a comment loses the last character of its value (distance 12 is recorded as 1).", "quantifier": "every matrix of ints, path, file system, code, output of the script (any lines and numbers)", "why_tests_cant": "all matrices and all outputs", "anchors": ["src/mqt/qecc/analog_information_decoding/code_construction/code_constructor.py:save_code", "src/mqt/qecc/analog_information_decoding/code_construction/code_constructor.py:_compute_distances", "src/mqt/qecc/analog_information_decoding/code_construction/sparse_code_constructor.py:_compute_distances", "src/mqt/qecc/analog_information_decoding/code_construction/compute_distances.sh", "src/mqt/qecc/analog_information_decoding/code_construction/compute_distances_3D.sh", "src/Utils.cpp:importGf2MatrixFromFile"]}
{"id": "C80", "title": "The result files of the colour code decoder", "statement": "A run of the decoder that fails - unknown lattice, an exception in the simulation, an unknown decoder on the command line - writes nothing; a successful one writes one file, its result.  Two runs write the same file exactly if they agree in directory, lattice, distance, the error rate rounded to four decimals and the last component of the solver's path; after any sequence of runs every result is there unless a later run wrote its file, so that with pairwise different keys the directory holds exactly the results, each once, and the figure drawn from it shows exactly these runs.  Rates more than 1/10000 apart, and those of run.sh, never collide; closer ones can, and an external program that is called z3 replaces the results of z3.  The tensor network decoder ignores lattice and solver.  generate_plots_comp draws for every directory the times of the distances 17 and 21 and, at the chosen rates, over its distances, as long as each rate has no result or as many as distances (otherwise ValueError); it never runs out of colours, but different solvers can have the same one.", "quantifier": "every sequence of runs (arguments, outcomes), initial state of the disk, order of the directory, list of directories and results", "why_tests_cant": "all sequences of runs", "anchors": ["src/mqt/qecc/cc_decoder/decoder.py:run", "src/mqt/qecc/cc_decoder/comparison/tn_decoder.py:run", "src/mqt/qecc/cc_decoder/cli.py:cli", "src/mqt/qecc/cc_decoder/run.sh", "src/mqt/qecc/cc_decoder/plots.py:generate_plots_comp"]}
{"id": "C81", "title": "What the estimation of logical error rates of preparation circuits simulates", "statement": "The command that estimates the logical error rate of a state preparation circuit uses for each setting the last option that speaks of it (default |0>, heuristic synthesis, optimal verification, distance 3); it makes the code that is named (any name containing surface gives the surface code of the distance asked for, the colour codes are always those of distance 5 whatever distance is given) and refuses every other name with ValueError; it simulates the circuit of the file whose name spells state, kind and methods in the directory of this code, if there is one, and otherwise one synthesised and verified by the methods asked for - for the state, the error rate and the number of errors asked for.  Different settings have different file names and a directory belongs to one code, so that no circuit is ever taken for another code, state or method.  Of the circuits that come with the package exactly those that do not say non_ft can be reached; in particular --no_ver never loads any of them and changes nothing: the circuit simulated is a newly built, verified one.", "quantifier": "every command line, set of files that are there, codes, synthesis, verification and simulation procedures (which may raise)", "why_tests_cant": "all command lines, and all behaviours of the procedures called", "anchors": ["src/mqt/qecc/ft_stateprep/eval/estimate_logical_error_rate.py:main", "src/mqt/qecc/ft_stateprep/eval/circuits"]}
