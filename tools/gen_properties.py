#!/usr/bin/env python3
"""Single source of properties.jsonl. Each entry: id, title, statement, quantifier, why_tests_cant, anchors."""
import json, os
P = []
def p(id, title, statement, quantifier, why, anchors):
    P.append(dict(id=id, title=title, statement=statement, quantifier=quantifier, why_tests_cant=why, anchors=anchors))

# --- C++ GF(2) linear algebra -------------------------------------------------
p("C01", "PLU rank is the rank over GF(2)",
  "Decomposing any GF(2) matrix given by column supports reports as rank the dimension of its row space (maximum number of linearly independent rows), and the reported pivot columns are linearly independent and span the column space.",
  "every row count, column count and every matrix given as in-range column supports",
  "the rank is computed by a stateful in-place elimination with recorded swaps; a wrong index only shows on particular matrices of unbounded size",
  ["include/GF2.hpp:PluDecomposition", "src/GF2.cpp:rref", "src/GF2.cpp:eliminateColumn"])
p("C02", "luSolve solves every consistent system",
  "For every matrix M and right-hand side y of the right length that lies in the column space of M, luSolve returns a vector x with M x = y; a right-hand side of another length is rejected with an exception and nothing else is.",
  "every matrix, every right-hand side",
  "needs forward/backward substitution to agree with the recorded elimination for every elimination history",
  ["src/GF2.cpp:luSolve"])
p("C03", "Row-space membership test is exact",
  "isVectorInRowspace(M, v) returns true exactly when v is a GF(2) linear combination of the rows of M, and throws exactly on a dimension mismatch.",
  "every matrix with at least one row and every vector",
  "equivalence with an existential over exponentially many row combinations",
  ["src/Utils.cpp:isVectorInRowspace", "src/Utils.cpp:toCsc", "src/Utils.cpp:getTranspose"])
p("C04", "Matrix utilities obey their algebra",
  "getTranspose swaps indices and is an involution on rectangular matrices, rectMatrixMultiply is the GF(2) matrix-vector product and throws exactly on shape mismatch, computeResidualErr is the component-wise XOR and vanishes exactly on equal inputs.",
  "every rectangular matrix and vector",
  "universally quantified algebraic laws",
  ["src/Utils.cpp:getTranspose", "src/Utils.cpp:rectMatrixMultiply", "src/Utils.cpp:computeResidualErr"])
p("C05", "Stabilizer test on C++ codes separates stabilizers from logical errors",
  "Code::isXStabilizer accepts an error iff it is a product of rows of the check matrix it is compared against, the syndrome is linear, every accepted error of a code with orthogonal check matrices has zero syndrome, and the verdict of isXStabilizer on residual = error XOR estimate is invariant under adding check rows to the estimate.",
  "every check matrix, error and estimate",
  "membership in an exponentially large group",
  ["include/Code.hpp:isXStabilizer", "include/Code.hpp:getXSyndrome", "include/Code.hpp:isStabilizer"])

# --- stabilizer codes ----------------------------------------------------------
p("C06", "Pauli strings round-trip through the binary form",
  "binary_to_pauli_string(pauli_to_binary(p)) returns p for every signed Pauli string up to an explicit leading '+', and pauli_to_binary(binary_to_pauli_string(b)) returns b for every binary vector of odd length.",
  "every string over IXYZ with optional sign, every binary vector",
  "unbounded string lengths",
  ["src/mqt/qecc/codes/stabilizer_code.py:pauli_to_binary", "src/mqt/qecc/codes/stabilizer_code.py:binary_to_pauli_string", "src/mqt/qecc/codes/stabilizer_code.py:is_pauli_string"])
p("C07", "Commutation test agrees with Pauli multiplication",
  "commute(p,q) holds iff the Pauli operators satisfy PQ = QP, i.e. iff the number of qubits on which they differ and are both non-identity is even; all_commute is the conjunction over all pairs; get_syndrome(e)[i]=1 iff e anticommutes with generator i, and the syndrome of a product of errors is the XOR of the syndromes.",
  "every pair of n-qubit Paulis, every n, every generator list",
  "quantifies over all lengths and operators",
  ["src/mqt/qecc/codes/stabilizer_code.py:commute", "src/mqt/qecc/codes/stabilizer_code.py:symplectic_inner_product", "src/mqt/qecc/codes/stabilizer_code.py:get_syndrome"])
p("C08", "stabilizer_equivalent decides equality up to stabilizers",
  "stabilizer_equivalent(p1, p2) should return True iff p1 p2 is (up to the tracked sign) a product of stabilizer generators.",
  "every code, every pair of Paulis",
  "equivalence classes are exponentially large; the relation must be reflexive, symmetric and transitive for all inputs",
  ["src/mqt/qecc/codes/stabilizer_code.py:stabilizer_equivalent"])
p("C09", "Equality of stabilizer codes",
  "Two StabilizerCode objects compare equal iff their generators (as binary vectors with the sign column) span the same space; equality is an equivalence relation. Equal codes should be exactly the codes with the same signed stabilizer group.",
  "every pair of generator lists",
  "set equality of generated groups for all inputs",
  ["src/mqt/qecc/codes/stabilizer_code.py:__eq__"])
p("C10", "Constructor accepts only well-formed codes",
  "A StabilizerCode that is constructed has equally long generators, k = n - rank and, when logicals are supplied, at most k logicals of each kind that all commute with every generator, every logical Z anticommuting with exactly one logical X; every other input is rejected with InvalidStabilizerCodeError. A user also expects that accepted generators commute pairwise.",
  "every input of the constructor",
  "all malformed inputs must be rejected",
  ["src/mqt/qecc/codes/stabilizer_code.py:__init__", "src/mqt/qecc/codes/stabilizer_code.py:_check_stabilizer_generators", "src/mqt/qecc/codes/stabilizer_code.py:_check_code_correct"])

# --- CSS codes -----------------------------------------------------------------
p("C11", "CSSCode accepts exactly orthogonal check matrices",
  "With both matrices given, construction succeeds iff they have equally many columns, every X check overlaps every Z check evenly and the x/z distances are not below the distance; the resulting number of logical qubits is n - rank Hx - rank Hz and all generators commute.",
  "every pair of check matrices and distances",
  "quantifies over all matrices",
  ["src/mqt/qecc/codes/css_code.py:__init__", "src/mqt/qecc/codes/css_code.py:_check_valid_check_matrices"])
p("C12", "Computed logical operators are a complete set",
  "The X (Z) logicals computed for a CSS code lie in the kernel of Hz (Hx), are independent modulo the X (Z) stabilizers, together with them span the whole kernel, and there are exactly n - rank Hx - rank Hz of them.",
  "every pair of orthogonal check matrices",
  "a completeness claim over the whole kernel",
  ["src/mqt/qecc/codes/css_code.py:_compute_logical"])
p("C13", "Logical-error test on a zero-syndrome residual is exact",
  "For every residual with zero syndrome, check_if_logical_x_error returns False iff the residual is a product of X stabilizers (likewise for Z), so the verdict does not depend on the chosen logical representatives.",
  "every CSS code and every zero-syndrome residual",
  "requires non-degeneracy of the pairing between computed logicals for every code",
  ["src/mqt/qecc/codes/css_code.py:check_if_logical_x_error", "src/mqt/qecc/codes/css_code.py:check_if_logical_z_error"])
p("C14", "Stabilizer membership and coset equality are exact",
  "check_if_x_stabilizer(v) iff v is in the row space of Hx; stabilizer_eq_x_error(a,b) iff a XOR b is a product of X stabilizers (likewise for Z).",
  "every CSS code, every pair of errors",
  "rank arithmetic must match the group relation for every matrix",
  ["src/mqt/qecc/codes/css_code.py:check_if_x_stabilizer", "src/mqt/qecc/codes/css_code.py:stabilizer_eq_x_error", "src/mqt/qecc/codes/css_code.py:stabilizer_eq_z_error"])
p("C15", "is_self_dual means the X and Z stabilizer groups coincide",
  "is_self_dual() returns True iff Hx and Hz have the same row space.",
  "every CSS code",
  "all matrices, including ones with redundant checks",
  ["src/mqt/qecc/codes/css_code.py:is_self_dual"])
p("C16", "Named codes have their documented parameters",
  "Every code shipped under from_code_name has orthogonal check matrices, the documented number of qubits and logical qubits, and the recorded X and Z distances are the true minimum weights of nontrivial logical operators.",
  "all errors of weight below the distance, for each shipped code; all names",
  "the distance quantifies over all low-weight operators and all stabilizer multiples",
  ["src/mqt/qecc/codes/css_code.py:from_code_name", "src/mqt/qecc/codes/*/hx.npy", "src/mqt/qecc/codes/*/hz.npy"])

# --- families ------------------------------------------------------------------
p("C17", "Hexagonal color codes are valid CSS codes for every distance",
  "For every odd distance d>=3 the constructed hexagonal color code has (3d^2+1)/4 qubits and one check fewer than half of them, every face touches 4 or 6 qubits, and any two faces overlap in an even number of qubits so that using the matrix for both X and Z gives commuting stabilizers; the result does not depend on the order qubits and faces are enumerated.",
  "every odd distance, every enumeration order of the Python sets",
  "an infinite family of codes",
  ["src/mqt/qecc/codes/hexagonal_color_code.py", "src/mqt/qecc/codes/color_code.py"])
p("C18", "Square-octagon color codes are valid CSS codes for every distance",
  "For every odd distance d>=3 the constructed 4.8.8 code has the documented number of qubits (d^2+2d-1)/2 and checks, and any two faces overlap in an even number of qubits.",
  "every odd distance, every enumeration order",
  "an infinite family of codes",
  ["src/mqt/qecc/codes/square_octagon_color_code.py"])
p("C19", "Bivariate bicycle construction always yields commuting checks",
  "For every torus size and every choice of exponents, the two check matrices built from cyclic shift polynomials are orthogonal, every check has even weight at most 6 and each supported code has the advertised length; an unsupported length raises an exception.",
  "all l, m, all exponent triples",
  "an infinite family",
  ["src/mqt/qecc/codes/bb_codes.py"])
p("C20", "3D/4D homological product codes are chain complexes",
  "For every pair of classical (or CSS) matrices, the boundary maps produced by the 3D and 4D product constructions compose to zero, so the resulting Hx, Hz and meta-checks satisfy Hx Hz^T = 0 and the meta-check annihilates every valid syndrome.",
  "all input matrices satisfying the stated precondition",
  "all sizes and matrices; Kronecker index arithmetic",
  ["src/mqt/qecc/analog_information_decoding/code_construction/code_constructor.py", "src/mqt/qecc/analog_information_decoding/code_construction/sparse_code_constructor.py"])

# --- LightsOut decoder -----------------------------------------------------------
p("C21", "The SAT encoding of each light is exactly its parity",
  "For every light with at least two switches, the generated constraints are satisfiable by some value of the helper variables iff the parity of its switches equals the requested value, and different lights do not share helpers.",
  "every number of switches, every switch assignment, every syndrome bit",
  "an equivalence over all assignments and arbitrary chain length",
  ["src/mqt/qecc/cc_decoder/decoder.py:preconstruct_parity_constraint", "src/mqt/qecc/cc_decoder/decoder.py:complete_parity_constraint"])
p("C22", "LightsOut returns a minimum-weight correction",
  "Given an optimising solver honouring its contract, solve returns a switch set that turns every light off and no other such set is smaller.",
  "every light/switch graph, every syndrome",
  "optimality over exponentially many corrections",
  ["src/mqt/qecc/cc_decoder/decoder.py:solve", "src/mqt/qecc/cc_decoder/decoder.py:validate_model"])
p("C23", "validate_model decides whether a switch set explains the lights",
  "validate_model(switches, lights) returns True iff toggling exactly the chosen switches turns every light off.",
  "every graph, every switch vector, every light vector",
  "all graphs including switches repeated in several lights",
  ["src/mqt/qecc/cc_decoder/decoder.py:validate_model"])

# --- LUT decoder ------------------------------------------------------------------
p("C24", "The lookup table holds a minimum-weight error for every syndrome",
  "The generated table has an entry for exactly the syndromes of errors, each entry has that syndrome and no error with the same syndrome has smaller weight; decoding an error therefore leaves a zero-syndrome residual, and any error of weight below half the distance leaves a stabilizer.",
  "every check matrix and error",
  "minimum over exponentially many errors",
  ["src/mqt/qecc/ft_stateprep/simulation.py:_generate_lut", "src/mqt/qecc/ft_stateprep/simulation.py:decode_x", "src/mqt/qecc/ft_stateprep/simulation.py:decode_z"])
p("C25", "LutDecoder answers regardless of the order of calls",
  "For every CSS code and every order of generating tables and decoding X and Z syndromes, decode_x/decode_z return an estimate with the requested syndrome.",
  "every code and every call history",
  "call-order dependence",
  ["src/mqt/qecc/ft_stateprep/simulation.py:generate_x_lut", "src/mqt/qecc/ft_stateprep/simulation.py:generate_z_lut"])

# --- union find ---------------------------------------------------------------------
p("C26", "Union-Find forest invariants",
  "After any sequence of unions the forest is acyclic, Find returns the unique root, two vertices have the same root iff they were connected by unions, the recorded cluster size equals the number of vertices in the tree and the recorded check vertices are exactly the checks in the tree.",
  "every sequence of Find/Union operations",
  "all histories",
  ["include/TreeNode.hpp:Find", "include/TreeNode.hpp:Union", "include/TreeNode.hpp:addFirstToSecondTree"])
p("C27", "UFDecoder components partition the visited nodes",
  "The connected components computed from a node set should partition the set into the connected components of the induced subgraph.",
  "every Tanner graph and node set",
  "traversal order dependent; holds or fails only on particular graphs",
  ["src/UFDecoder.cpp:getConnectedComps"])
p("C28", "A component estimate reproduces the component's syndrome",
  "Whenever a component yields an estimate, the estimate satisfies every check constraint of the component it was computed from.",
  "every check matrix, syndrome and node set",
  "all sub-systems of all matrices",
  ["src/UFDecoder.cpp:getEstimateForComponent"])
p("C29", "Growth is monotone and terminates or is flagged",
  "Cluster growth only ever adds vertices; with the all-components policy the node set strictly grows until it is closed under neighbours; the advertised InvalidComponents policy must make progress.",
  "every graph, syndrome and growth policy",
  "termination for all inputs",
  ["src/UFDecoder.cpp:standardGrowth", "src/UFDecoder.cpp:doDecode", "include/Decoder.hpp:GrowthVariant"])
p("C30", "Two-sided decoding uses the matrix matching each syndrome",
  "setCode keeps the X and Z check matrices of a two-sided code, decode splits the syndrome at the right place and decodes each half with its own matrix.",
  "every two-sided code",
  "only visible on codes with different X and Z matrices",
  ["include/Decoder.hpp:setCode", "src/UFDecoder.cpp:decode", "src/UFHeuristic.cpp:decode"])
p("C31", "Tanner-graph neighbours are the matrix incidences",
  "getNbrs(i) for a bit i<n lists exactly the checks (offset by n) containing it, for a check index n+j exactly the bits it contains, in increasing order, and any other index is rejected; the relation is symmetric; the cache never changes an answer.",
  "every matrix and every sequence of queries",
  "all matrices and query histories",
  ["include/Code.hpp:getNbrs"])
p("C32", "Erasure decoding of a cluster peels to the syndrome",
  "The estimate produced by the heuristic decoder's erasure step covers each syndrome check of the component, or the decoder does not terminate / is flagged.",
  "every cluster",
  "all graphs",
  ["src/UFHeuristic.cpp:erasureDecoder"])

# --- state preparation -----------------------------------------------------------------
p("C33", "CNOT circuits from column operations prepare the code state",
  "For every CSS code, the heuristic circuit (Hadamards on one group of qubits followed by the recorded CNOTs in reverse) maps the initial product-state stabilizers to exactly the row space of the check matrix, i.e. prepares the logical zero/plus state.",
  "every check matrix",
  "all codes and elimination histories",
  ["src/mqt/qecc/ft_stateprep/state_prep.py:heuristic_prep_circuit", "src/mqt/qecc/ft_stateprep/state_prep.py:_build_circuit_from_list_and_checks"])
p("C34", "Greedy column elimination terminates with tracked costs",
  "The greedy elimination keeps costs[i][j] = weight(ci+cj) - weight(cj) for every pair of columns after every step, each greedy step strictly reduces the number of ones and the loop always terminates.",
  "every check matrix, optimisation flag",
  "termination and an invariant over all steps",
  ["src/mqt/qecc/ft_stateprep/state_prep.py:heuristic_prep_circuit"])
p("C35", "Fault sets contain exactly the propagated single faults",
  "compute_fault_set for one error returns, up to stabilizer equivalence, exactly the data-qubit errors obtained by inserting one X (Z) fault after any CNOT and propagating it to the end.",
  "every CNOT circuit",
  "all circuits and fault locations",
  ["src/mqt/qecc/ft_stateprep/state_prep.py:compute_fault_set", "src/mqt/qecc/ft_stateprep/state_prep.py:_propagate_error"])
p("C36", "Fault combination covers all multi-fault errors",
  "combine_faults returns every XOR of at most the given number of base faults up to stabilizers and nothing else, and removing trivial or equivalent faults never drops an error class that a verification must detect.",
  "every fault set and number of faults",
  "all subsets",
  ["src/mqt/qecc/ft_stateprep/state_prep.py:combine_faults", "src/mqt/qecc/ft_stateprep/state_prep.py:_remove_stabilizer_equivalent_faults", "src/mqt/qecc/ft_stateprep/state_prep.py:_remove_trivial_faults"])
p("C37", "Coset leader is a minimum-weight representative",
  "The coset leader computed for an error differs from it by a stabilizer and has minimum weight in the coset.",
  "every error and generator set",
  "minimum over an exponential coset",
  ["src/mqt/qecc/ft_stateprep/state_prep.py:_coset_leader"])
p("C38", "Verification stabilizers detect every dangerous fault",
  "Stabilizers returned by the verification search are products of the given checks, and each fault of the fault set anticommutes with at least one of them; when the search reports none, no set of that size and weight does.",
  "every fault set, every number and weight of measurements",
  "soundness and completeness of a symbolic search",
  ["src/mqt/qecc/ft_stateprep/state_prep.py:verification_stabilizers", "src/mqt/qecc/ft_stateprep/state_prep.py:_odd_overlap", "src/mqt/qecc/ft_stateprep/state_prep.py:_vars_to_stab"])
p("C39", "Greedy set cover covers",
  "_set_cover returns a subfamily of the given sets that covers the universe and every returned set contributes; it terminates iff the family covers the universe.",
  "every universe and family",
  "termination and coverage for all families",
  ["src/mqt/qecc/ft_stateprep/state_prep.py:_set_cover", "src/mqt/qecc/ft_stateprep/state_prep.py:_covers"])
p("C40", "Iterative search returns the smallest solvable parameter",
  "The iterative/bisecting search over circuit size returns a solution of the least parameter in the range admitting one, for any monotone solvability predicate, and gives up only on timeouts.",
  "every predicate, range and timeout behaviour",
  "all search histories",
  ["src/mqt/qecc/ft_stateprep/state_prep.py:iterative_search_with_timeout", "src/mqt/qecc/ft_stateprep/state_prep.py:_optimal_circuit"])
p("C41", "Symbolic column-addition encoding is exact",
  "Every model of the generated constraints for a sequence of column additions corresponds to a concrete sequence of CNOTs transforming the matrix, and conversely.",
  "every matrix size and number of steps",
  "all models of the constraints",
  ["src/mqt/qecc/ft_stateprep/state_prep.py:_column_addition_constraint", "src/mqt/qecc/ft_stateprep/state_prep.py:_final_matrix_constraint", "src/mqt/qecc/ft_stateprep/state_prep.py:_symbolic_vector_add"])

# --- flag gadgets --------------------------------------------------------------------------
p("C42", "Unflagged and flagged measurement gadgets measure the stabilizer",
  "Without faults, whenever measure_flagged builds a gadget, no flag can read 1, the state after ancilla outcome o is the projection of the data onto the (-1)^o eigenspace of the measured Z or X product, and each flag and the ancilla are measured into their own new bit. The unflagged gadget does so for every weight. Which weights and t are supported is exact, with the exception raised otherwise. Exception: with t=1 a stabilizer of weight one is not measured at all (the only CNOT is applied twice).",
  "every weight, every ordering, both bases",
  "all weights of an inductively defined circuit",
  ["src/mqt/qecc/ft_stateprep/state_prep.py:measure_flagged", "src/mqt/qecc/ft_stateprep/state_prep.py:_measure_stab_one_flagged"])
p("C43", "One flag catches every dangerous hook error",
  "For every stabilizer of weight at least two, every single fault of the one-flag gadget (any Pauli on the qubits of any instruction, before or after it) leaves, whenever the flag reads 0, the fault-free state up to an error on at most one data qubit and a possibly flipped ancilla outcome.",
  "every weight and fault location",
  "all weights",
  ["src/mqt/qecc/ft_stateprep/state_prep.py:_measure_stab_one_flagged"])
p("C44", "Two-flag gadgets tolerate two faults",
  "Whenever measure_flagged with t=2 returns a gadget, any one (two) faults leave at most one (two) erroneous data qubits unless a flag reads 1. It returns a gadget for the weights 1, 2, 4, 5, 6, 8 only, not for every weight. w_flag_pattern arranges 0..w-2 for even weights, and misses a position for odd ones.",
  "every weight",
  "all weights and pairs of faults",
  ["src/mqt/qecc/ft_stateprep/state_prep.py:measure_stab_two_flagged", "src/mqt/qecc/ft_stateprep/state_prep.py:w_flag_pattern"])
p("C45", "Hook errors of the measured stabilizers",
  "The hook errors computed for a list of measured stabilizers are exactly those stabilizers with one qubit removed; each is equivalent to a single-qubit error. They are not the errors one ancilla fault can cause: the suffixes of length 2..w-2, which a single fault of the unflagged gadget does cause, are missing, also up to the stabilizer.",
  "every list of stabilizers",
  "all stabilizers",
  ["src/mqt/qecc/ft_stateprep/state_prep.py:_hook_errors"])
p("C46", "The Monte Carlo simulation of a verified state preparation samples the right circuit and counts right",
  "The simulated circuit prepares what the given circuit prepares, with the documented noise after each operation; every verification measurement is one record and a sample is discarded exactly when one of them is 1; whatever errors occur, the syndrome read from a sample is the syndrome of its data, and a kept sample counts as a logical error exactly when the data corrected by a least-weight estimate is not a stabilizer; the acceptance rate is exact and the logical error rate is the mean of the batch rates. Not true of the code: a Hadamard on an unused qubit is lost unless the qubit's first CNOT is controlled by it; an ancilla measured three times breaks the number of data qubits; without at_least_min_errors one batch too many is reported; with it the loop may never end; the rate is not errors per accepted shot.",
  "every supported circuit, layering, noise strength, noise realisation, sample batch and stopping condition",
  "the records, errors and batch outcomes are random and unbounded in number",
  ["src/mqt/qecc/ft_stateprep/simulation.py:NoisyNDFTStatePrepSimulator", "src/mqt/qecc/ft_stateprep/simulation.py:logical_error_rate"])

# --- ECC framework ------------------------------------------------------------------------------
p("C47", "Encoded qubits and classical bits never collide",
  "In every ECC of the framework, every operation of the mapped circuit acts on distinct qubits of the declared register; the physical qubits of different logical qubits and the ancillas are pairwise distinct; apart from the input's own measurements Q3Shor, Q9Shor, Q5Laflamme and Q7Steane use only the classical bits they declare.  Not so: Q5Laflamme and Q7Steane exchange qubit and bit of a measurement (and can leave the register), Q9Surface and Q18Surface overwrite the input's classical bits when decoding.",
  "every code, number of logical qubits, input circuit, measure frequency", "collisions depend on the number of qubits and the circuit; tests fix a few",
  ["include/ecc/Ecc.hpp", "src/ecc/Ecc.cpp:initMappedCircuit", "src/ecc/Q7Steane.cpp:mapGate", "src/ecc/Q5Laflamme.cpp:mapGate", "src/ecc/Q9Surface.cpp:writeDecoding"])
p("C48", "Each ECC corrects every single-qubit error it advertises",
  "For Q3Shor (X only), Q9Shor, Q5Laflamme, Q7Steane and Q9Surface: any operator on at most one qubit of each block, applied to any encoded state of any number of logical qubits, is undone by one round of measureAndCorrect for all measurement outcomes, up to a factor and the state of the ancillas; for Pauli errors some outcome has a non-zero factor.  Not so: Q18Surface never notices what happens to data qubits 17, 32 and 34, Q3Shor never notices phase flips.",
  "every encoded (also entangled) state, every error on at most one qubit per block, every measurement outcome, any number of logical qubits", "states and errors are a continuum; simulation tests sample circuits",
  ["src/ecc/Q3Shor.cpp:measureAndCorrect", "src/ecc/Q9Shor.cpp:measureAndCorrect", "src/ecc/Q7Steane.cpp:measureAndCorrectSingle", "src/ecc/Q5Laflamme.cpp:measureAndCorrect", "src/ecc/Q9Surface.cpp:measureAndCorrect", "src/ecc/Q18Surface.cpp:measureAndCorrect"])
p("C49", "Encoding followed by decoding is the identity",
  "Q3Shor and Q9Shor: encoding maps any state of n qubits to the code, X and Z of a qubit to its logical X and Z, decoding reverses it and their composition is the identity up to a factor.  First encodings give logical zeros (Q3Shor, Q9Shor, Q7Steane; Q5Laflamme with one qubit), a round puts any state into the code, decoding turns the logical Z into Z of the first qubit (five codes).  Not so: the first encoding of Q9Surface and of Q5Laflamme with two qubits, and re-encoding a measured 1 with Q7Steane and Q5Laflamme.",
  "every state, measurement outcome and number of qubits", "states are a continuum; tests compare counts of a few circuits",
  ["src/ecc/Q3Shor.cpp", "src/ecc/Q9Shor.cpp", "src/ecc/Q7Steane.cpp", "src/ecc/Q5Laflamme.cpp", "src/ecc/Q9Surface.cpp"])
p("C50", "Error-correction rounds follow the measure frequency",
  "Applying an ECC to a circuit of g gates without measurements inserts a correction round after every measureFrequency-th gate and one more at the end, then decodes exactly once; with measurements, decodings and encodings alternate, rounds happen only in the encoded state and the circuit ends decoded; every input gate occurs once and in order; the identity code returns the circuit.",
  "every circuit, frequency (0 included) and number of qubits", "the schedule depends on the length and shape of the circuit",
  ["src/ecc/Ecc.cpp:apply", "include/ecc/Id.hpp"])
p("C51", "Multi-round parity-check matrix has the space-time structure",
  "For every H and number of repetitions, the multi-round matrix applied to (data errors, measurement errors) equals, round by round, H e_r + m_r + m_{r-1}, which is the difference syndrome of noisy repeated measurement.",
  "every H, every number of rounds, every error history",
  "unbounded number of rounds",
  ["src/mqt/qecc/analog_information_decoding/utils/../simulators/memory_experiment_v2.py:build_multiround_pcm", "src/mqt/qecc/analog_information_decoding/simulators/memory_experiment_v2.py:decode_multiround"])
p("C52", "Overlapping-window decoding commits consistently",
  "After each window the committed correction together with the carried-over syndrome explains the same measurement record: the updated syndrome equals the old one XOR the contribution of the committed correction.",
  "every window, every decoder output consistent with its syndrome",
  "all histories",
  ["src/mqt/qecc/analog_information_decoding/simulators/memory_experiment_v2.py:decode_multiround", "src/mqt/qecc/analog_information_decoding/simulators/memory_experiment_v2.py:move_syndrome"])
p("C53", "Analog Tanner graph adds exactly one virtual bit per check",
  "The analog check matrix [H|I] accepts (e,v) for a syndrome s iff v = s XOR H e, so every syndrome becomes explainable and the first n bits are decoded as data.",
  "every H, syndrome",
  "all matrices",
  ["src/mqt/qecc/analog_information_decoding/simulators/analog_tannergraph_decoding.py:get_analog_pcm", "src/mqt/qecc/analog_information_decoding/utils/simulation_utils.py:build_single_stage_pcm"])
p("C54", "Error generation respects its masks",
  "generate_err XORs into each qubit an X, Z or both, drawn from disjoint probability intervals, never touches another qubit, and the returned error is the residual XOR the fresh error.",
  "every random draw and residual",
  "all random draws",
  ["src/mqt/qecc/analog_information_decoding/utils/simulation_utils.py:generate_err"])
p("C55", "Convergence detection",
  "is_converged answers True iff all sides requested are below the requested precision.",
  "every pair of error bars",
  "chained comparison semantics over all inputs",
  ["src/mqt/qecc/analog_information_decoding/utils/data_utils.py:is_converged", "src/mqt/qecc/analog_information_decoding/utils/data_utils.py:_check_convergence"])
p("C56", "Merging simulation results preserves totals",
  "Merging data sets adds run and failure counts for each parameter set and the merged rate is the pooled failure fraction, independent of merge order.",
  "every list of data sets",
  "all orders and groupings",
  ["src/mqt/qecc/analog_information_decoding/utils/data_utils.py:merge_datasets", "src/mqt/qecc/analog_information_decoding/utils/data_utils.py:_combine_xz_data"])
p("C57", "Logical operations act as documented",
  "The circuit for a Pauli gate acts as this gate on the encoded qubit (Q3Shor, Q9Shor, Q5Laflamme, Q7Steane, Q9Surface), Q7Steane also for H, S, S-dagger, T, T-dagger, and controlled X (Q3Shor, Q7Steane, Q9Shor) and controlled Z (Q3Shor, Q7Steane), up to a factor, on every encoded state.  Not so, although ticked in the documentation: S, S-dagger, T, T-dagger of Q3Shor, controlled Y of Q3Shor and Q7Steane (controlled -Y), controlled Y and Z of Q9Shor and the Hadamard gate of Q9Surface (leave the code), controlled gates of Q9Surface and H of Q3Shor (throw), X and Z of Q18Surface (commute).",
  "every encoded state of any number of logical qubits, every target and control", "states are a continuum and the documentation's table ranges over all of them",
  ["src/ecc/Q3Shor.cpp:mapGate", "src/ecc/Q9Shor.cpp:mapGate", "src/ecc/Q5Laflamme.cpp:mapGate", "src/ecc/Q7Steane.cpp:mapGate", "src/ecc/Q9Surface.cpp:mapGate", "src/ecc/Q18Surface.cpp:mapGate", "docs/EccFramework.rst"])
p("C58", "A transformed program computes what the program computes, in spite of errors",
  "Let a circuit of X, Y, Z, measurements and controlled X (for Q3Shor also controlled Z) be transformed with Q3Shor (from qubits that are all 0) or Q9Shor (from any input state), with any measure frequency, and let before each correction round an error strike at most one qubit of each block (for Q3Shor combinations of identity and X, for Q9Shor arbitrary operators).  Then apply succeeds, and for all outcomes the transformed circuit ends in the state in which the original circuit ends with the same measurement outcomes, up to a factor that depends only on the outcomes of the code's own measurements (so that measurement outcomes keep their probabilities) and the state of the ancillas, and with the same classical bits; if the errors are gates the factor is not 0 for some outcomes.  Not so for Q3Shor with other inputs: a qubit that is 1 at the beginning is taken for an error.",
  "every such circuit (mid-circuit measurements included), frequency, number of qubits, initial state, sequence of errors and outcomes", "states, errors and programs are unbounded; tests compare counts of a few circuits",
  ["src/ecc/Ecc.cpp:apply", "src/ecc/Q3Shor.cpp", "src/ecc/Q9Shor.cpp"])
p("C59", "Single-shot simulation",
  "For every history of draws and every behaviour of the decoders in the noisy rounds: every round starts from the residual error of the one before; each noisy round adds fresh errors that depend on the draws only, and what is decoded depends on the noisy syndrome only; with two-stage hard decoding the residual syndrome is the difference between flipped and repaired checks, which meta checks cannot see (without meta checks: the flips), and likewise with single-stage decoding on the analog Tanner graph or with the analog-information decoder; with a final decoder that explains its syndrome and given logical operators the two flags of a sample say exactly whether the residual X and Z errors are non-trivial.  Not true of the code: run never returns (it writes to a file opened for reading); single-stage decoding of hard syndromes always fails with AttributeError; analog decoding without syndrome noise decodes the complement of the syndrome; two-stage analog decoding without meta checks truncates instead of thresholding, and swaps the X and Z probabilities; without logical operators the flags do not depend on the residual error.",
  "every code, meta code, channel, list of draws, decoder behaviour, number of rounds and samples", "decoder behaviours and draws are unbounded; the defects hold for every input",
  ["src/mqt/qecc/analog_information_decoding/simulators/simulation.py:SingleShotSimulator"])
p("C60", "Reliabilities of the virtual nodes",
  "For sigma>0 every virtual node is initialised with a probability in (0, 1/2] whose log-likelihood ratio is 2|y|/sigma^2, so that it decreases with |y| and ignores the sign; for sigma<=0 all are 0.",
  "every analog syndrome and sigma", "real-valued inputs",
  ["src/mqt/qecc/analog_information_decoding/utils/simulation_utils.py:get_virtual_check_init_vals", "src/mqt/qecc/analog_information_decoding/utils/simulation_utils.py:get_analog_llr"])

p("C61", "Word error rates of the decoding simulator",
  "simulateWER visits the rates min, min+step, ... below max and the raw-data file gets one entry per printed rate and no other: failures / runs / k of the first rate printed so, a run being a failure iff the sampled error and the decoder's answer to its syndrome differ by more than a product of checks (a success always restores the syndrome); with the heuristic decoder it completes on every two-sided code, with the union-find decoder on every connected one.  Not so: no constructor sets k, so the entries are infinite or undefined; one-sided codes raise; rates that agree in six decimals share an entry; the statistics file never closes four of its brackets.",
  "every code, error sample, decoder choice, rate range, number of runs", "quantifies over all random draws and all rate ranges",
  ["src/DecodingSimulator.cpp:simulateWER", "include/Code.hpp:getK", "include/Decoder.hpp:setCode"])
p("C62", "Average runtimes of the decoding simulator",
  "simulateAverageRuntime writes, for each code file and each run, the decoding time divided by the number of samples; with one run this is the average, rounded down; the chosen decoders decode every sample (connected graph or heuristic).  Not so: the time of earlier runs is counted again, so run j of equally slow decodings reports j+1 times their duration; a file that is no code drops every later file; no samples kills the program.",
  "every directory of codes, all decoding times, numbers of runs and samples", "quantifies over all timings and failure positions",
  ["src/DecodingSimulator.cpp:simulateAverageRuntime"])

p("C63", "Monte-Carlo logical error rate of the LightsOut decoder",
  "With the built-in solver, simulate_error_rate on a hexagonal (odd distance) or square-octagon code terminates normally; the reported logical error rate is the fraction of the samples whose residual (error XOR estimate) is not a stabilizer, no sample with fewer than d/2 flips counts, the reported minimum weight is -1 if no sample failed and otherwise the least residual weight of a failed sample (at least d), and the reported construction and solving times are the means over the samples.  Not so: with an external solver the estimate is always empty and the rate is reported as 0 whatever the errors; for an even hexagonal distance nothing is reported; zero samples give undefined rates.  code_from_string builds the named lattice and raises ValueError for every other name.",
  "every odd/even distance, enumeration order of the lattice, solver, list of sampled errors and list of measured times",
  "all distances and all sampled error lists; the rate aggregates over an unbounded number of samples decoded on one mutated solver state",
  ["src/mqt/qecc/cc_decoder/decoder.py:simulate_error_rate", "src/mqt/qecc/cc_decoder/__init__.py:code_from_string"])

p("C64", "Hash and equality of codes",
  "Python requires equal objects to have equal hashes.  Colour codes satisfy it (equality is equality of the check matrix).  Stabilizer codes do not: == compares the generated groups but the hash reads the generator list and its dtype, so two equal codes with reordered (or differently typed) generators have different hashes; a set keeps both and a dictionary lookup misses.  What holds: a lookup only ever returns a code that generates the same group, and an object built from the same generators with the same dtype is always found; a colour code equals the CSS code of its matrix on either side of ==; == is not transitive between colour codes with different enumeration orders and the CSS codes in between.",
  "all generator lists, dtypes, enumeration orders and hash tables",
  "the contract quantifies over all pairs of objects and all hash functions of byte strings; the failing pairs are equal as groups",
  ["src/mqt/qecc/codes/stabilizer_code.py:__hash__", "src/mqt/qecc/codes/stabilizer_code.py:__eq__", "src/mqt/qecc/codes/color_code.py:__hash__", "src/mqt/qecc/codes/color_code.py:__eq__"])
p("C65", "Product codes written to disk by create_code",
  "The 4D create_code succeeds for every four seeds when the 2D product has commuting checks (the hypergraph product always has); the saved matrices hx, hz commute, the meta-checks annihilate them and, if requested, the saved logical operators are complete and independent, n - rank hx - rank hz on each side.  For the hypergraph product of seeds with kernel dimensions k_i and cokernel dimensions t_i this number is (k0 t1 t2 + (k0 k1 + t0 t1) k2) t3 + ((k0 k1 + t0 t1) t2 + t0 k1 k2) k3 in 4D and (k0 k1 + t0 t1) t2 + t0 k1 k2 in 3D, so toric codes of rings of any lengths have six and three logical qubits.  An unknown constructor is a ValueError, missing seeds and non-commuting checks are rejected, all before anything is written.  Not so for the sparse (3D) version: with compute_distance=False it always ends in an AttributeError, never stores the parameters, and saves the matrices only if logical operators were requested.",
  "every four (three) seed matrices, every hypergraph-product routine with commuting checks, every rank/kernel library meeting its contract",
  "all seed matrices of all sizes; saved matrices are too large for exhaustive checks even for small seeds",
  ["src/mqt/qecc/analog_information_decoding/code_construction/code_constructor.py:create_code", "src/mqt/qecc/analog_information_decoding/code_construction/code_constructor.py:_compute_logicals", "src/mqt/qecc/analog_information_decoding/code_construction/sparse_code_constructor.py:create_code", "src/mqt/qecc/analog_information_decoding/code_construction/sparse_code_constructor.py:_store_code_params"])

p("C66", "Verified state preparation circuits as a whole",
  "A verified state preparation circuit (heuristic_verification_circuit, gate_optimal_verification_circuit, naive_verification_circuit on a heuristic preparation circuit) is the preparation followed by measurements of ancilla and flag qubits into one classical bit each.  For every Pauli error between the two, each of these bits has a certain value: it tells whether the error anticommutes with the product of checks measured, flags read 0, and the data is left in the prepared state with that error and nothing else.  Without an error every bit reads 0 and the prepared state comes out.  If all bits can read 0 although the error is a combination of j <= max_errors faults of the preparation (for the second layer: or hook errors of the first), some stabilizer makes it at most j * max_weight heavy.  The heuristic search always ends, with a circuit or, for the second layer, with the exception of a gadget that is not implemented.  Two provisos: a product of weight one in the second layer is not measured when one error is corrected, and the gate-optimal search silently leaves a layer out when it finds nothing.",
  "every CSS code, heuristic preparation circuit, state, iteration order, SAT/optimizer answers, history of calls, every Pauli error (both parts) and number of combined faults",
  "all Pauli errors on all states of all codes; amplitudes of every basis state for every outcome list",
  ["src/mqt/qecc/ft_stateprep/state_prep.py:_verification_circuit", "src/mqt/qecc/ft_stateprep/state_prep.py:heuristic_verification_circuit", "src/mqt/qecc/ft_stateprep/state_prep.py:gate_optimal_verification_circuit", "src/mqt/qecc/ft_stateprep/state_prep.py:naive_verification_circuit", "src/mqt/qecc/ft_stateprep/state_prep.py:_measure_ft_stabs"])

p("C67", "Collecting result files",
  "merge_json_files on an absolute folder writes, next to it, one entry for every subfolder that holds readable results: the counts are the sums over the readable .json files of the subfolder, rates and error bars those of the sums; files that do not decode are left out; nothing else changes, and over all entries every run is counted exactly once.  load_data rebuilds a file that does not decode from the folder of its name in this way.  With a relative folder (or file name) the path is joined with itself: nothing is found, the output is overwritten by an empty list and load_data returns it; with '.' the call raises as soon as a subfolder has a .json file.",
  "every file system, every order in which a directory is listed, every set of result dictionaries, readable or not",
  "all file systems with any number of folders, files and broken files",
  ["src/mqt/qecc/analog_information_decoding/utils/data_utils.py:merge_json_files", "src/mqt/qecc/analog_information_decoding/utils/data_utils.py:merge_json_files_x", "src/mqt/qecc/analog_information_decoding/utils/data_utils.py:merge_json_files_z", "src/mqt/qecc/analog_information_decoding/utils/data_utils.py:merge_json_files_xz", "src/mqt/qecc/analog_information_decoding/utils/data_utils.py:load_data"])
p("C68", "Output files under concurrency and crashes",
  "create_outpath ends and returns the path of the first free identifier from the given one on, creates that file empty and changes nothing else; calls one after the other never return the same file.  When any number of processes look for output files and write results at the same time, in every interleaving and wherever processes stop, nothing that existed before is changed; two processes get the same file only if both looked before either created it - which can happen, and then one process's results replace the other's.  A file that a process has to itself holds the last result completely written; before the first and during a later write it does not decode (an interrupted save loses the earlier result).  Two settings share a folder exactly when they agree in what the folder records; with x_sigma and z_sigma the file lands outside the directory made for it.",
  "every file system, settings and identifiers, every number of processes, every schedule and every crash point",
  "all interleavings of all processes, all crash points, all file systems",
  ["src/mqt/qecc/analog_information_decoding/utils/data_utils.py:create_outpath", "src/mqt/qecc/analog_information_decoding/utils/simulation_utils.py:save_results", "src/mqt/qecc/analog_information_decoding/simulators/analog_tannergraph_decoding.py:AnalogTannergraphDecoder"])
p("C69", "Parameter grids and settings files",
  "product_dict yields every choice of one value per key, as often as the lists contain it; zip_dict yields as many dictionaries as the shortest list has values, the i-th with the i-th value of every key, and none without keys; extract_settings lists for every keyword of a settings file its distinct values in order of first appearance; BpParams.from_dict gives every field the value of the dictionary or its default and ignores other entries.",
  "every dictionary of lists, every settings file, every dictionary of parameters",
  "all numbers of keys and values",
  ["src/mqt/qecc/analog_information_decoding/utils/data_utils.py:product_dict", "src/mqt/qecc/analog_information_decoding/utils/data_utils.py:zip_dict", "src/mqt/qecc/analog_information_decoding/utils/data_utils.py:extract_settings", "src/mqt/qecc/analog_information_decoding/utils/data_utils.py:BpParams"])

p("C70", "One fault anywhere in a verified state preparation circuit",
  "Take the circuit returned by heuristic_verification_circuit (or by gate_optimal_verification_circuit when its searches found measurements) for a heuristic preparation circuit, and one Pauli fault on the qubits of one of its instructions, directly before or after it: in the preparation, in the measurements of either layer, on data, ancilla or flag qubits.  If all measurements can read 0, the data is left in the prepared state with an error whose part of the type verified first (X for the zero state) some stabilizer brings down to weight max_weight, and with full fault tolerance the other part too.  Provisos: the faults before the first CNOT, which the library's fault sets leave out, are light or equivalent to one in the set; for full fault tolerance the operators measured first have weight at most 2*max_weight+1 (hook errors are not searched for properly, see C45), and no stabilizer of weight one is measured second.",
  "every CSS code, heuristic preparation circuit, state, iteration order, SAT/optimizer answers, history of calls, every place in the circuit and every Pauli fault there",
  "all fault places and Paulis in all circuits for all codes; amplitudes of every basis state",
  ["src/mqt/qecc/ft_stateprep/state_prep.py:_verification_circuit", "src/mqt/qecc/ft_stateprep/state_prep.py:heuristic_verification_circuit", "src/mqt/qecc/ft_stateprep/state_prep.py:gate_optimal_verification_circuit", "src/mqt/qecc/ft_stateprep/state_prep.py:_measure_ft_stabs", "src/mqt/qecc/ft_stateprep/state_prep.py:_measure_ft_x", "src/mqt/qecc/ft_stateprep/state_prep.py:_measure_ft_z"])
p("C71", "Reading an alist file",
  "alist2numpy returns, for every file in the format (a line with the numbers of rows and columns, three lines that are skipped, then one line of 1-based column numbers for each row; blank lines do not count), the 0/1 matrix whose row i has ones exactly in the listed columns.  A padding zero in a row, as many alist files have them, sets the last column; a file never describes a zero row (blank lines are skipped); a column number out of range is an error.",
  "every text, every matrix and every arrangement of its rows",
  "all files of all sizes, including padded and malformed ones",
  ["src/mqt/qecc/analog_information_decoding/utils/simulation_utils.py:alist2numpy"])
p("C72", "Channel probabilities of the analog decoders in every history",
  "An AnalogTannergraphDecoder decodes every syndrome with the error channel of its constructor for the data bits and the values of the present analog syndrome for the virtual bits, whatever was decoded before.  In a sample of the quasi-single-shot simulation with analog syndromes, window j of 2T rounds is decoded with the data channel for each round and the values of exactly the syndromes measured in rounds jT..jT+2T-1, the last window with a tiny value for its last round, for either decoder and whatever earlier samples did; the channel has one entry per column of the multi-round matrix.  With hard syndromes and the BP+OSD decoder the history matters: after one last round every later window is decoded with the tiny value too (a matching decoder is not affected).",
  "every code, channel, window, number of rounds and samples, sequence of syndromes and calls",
  "state kept in the decoder object between calls; all histories and lengths",
  ["src/mqt/qecc/analog_information_decoding/simulators/memory_experiment_v2.py:decode_multiround", "src/mqt/qecc/analog_information_decoding/simulators/memory_experiment_v2.py:get_updated_decoder", "src/mqt/qecc/analog_information_decoding/simulators/quasi_single_shot_v2.py:QssSimulator", "src/mqt/qecc/analog_information_decoding/simulators/analog_tannergraph_decoding.py:AnalogTannergraphDecoder"])
p("C73", "The Qiskit wrapper: noise model, printed results, export",
  "create_noise_model succeeds exactly for non-empty strings over B, D, A, P and reports the first other character.  The error acts on every qubit of exactly the listed gates (not on x, y, z, cz, ccx, measurements); it is the composition of the letters in their order; without A it depends on the numbers of the letters only (closed form), with A the order matters (AB and BA differ for every 0 < p <= 1); it maps states to states for 0 <= p <= 1 and is the identity for p = 0.  print_simulation_results prints states of the register declared first in increasing order, each with its number of shots, at most 1000; every state above the threshold is printed unless 1000 smaller ones are; the smallest state is printed even below the threshold; with threshold 0 and at most 1000 states the numbers add up.  main exports exactly the circuit it would simulate, with measurements, and checks the noise letters exactly when the probability is positive.",
  "every string, probability, Bloch vector, gate name, table of counts, number of shots, threshold, circuit",
  "all strings of letters, real probabilities and states; all tables of counts",
  ["src/mqt/qecc/ecc_qiskit_wrapper.py:create_noise_model", "src/mqt/qecc/ecc_qiskit_wrapper.py:compose_error", "src/mqt/qecc/ecc_qiskit_wrapper.py:print_simulation_results", "src/mqt/qecc/ecc_qiskit_wrapper.py:main"])
p("C74", "How many errors a preparation is made safe against, and switching between correction and detection",
  "max_errors, max_x_errors, max_z_errors are the largest t with 2t < d for correction and with 2t <= d for detection (asked for, or distance two).  What at most max_errors faults may leave behind (weight max_weight for each) is harmless for a code of the stated distances: for correction two such errors with the same syndrome differ by a stabilizer, for detection such an error without syndrome is a stabilizer.  set_error_detection can be called at any time: after any sequence of such calls and computations of fault sets the object behaves like a new one with the last flag, and fault sets computed then are those of C36 for that flag.",
  "every CSS code, circuit, state, error type, pair of errors, sequence of operations",
  "all codes and errors; histories of calls that share caches",
  ["src/mqt/qecc/ft_stateprep/state_prep.py:StatePrepCircuit.set_error_detection", "src/mqt/qecc/ft_stateprep/state_prep.py:StatePrepCircuit._set_max_errors", "src/mqt/qecc/ft_stateprep/state_prep.py:StatePrepCircuit.compute_fault_set"])
p("C75", "The cost of gate-optimal verification",
  "Without time-outs gate_optimal_verification_stabilizers always comes to an end.  It returns [] only if for some number of errors no list of at most max_ancillas products of checks, with no more CNOTs than all checks take together, meets every dangerous error in exactly one qubit; this never happens for the default max_ancillas when dangerous errors are equivalent to errors on at most two qubits.  Otherwise each layer has at most max_ancillas measurements, none of them trivial, the fewest CNOTs among all such lists with as many ancillas or fewer, the fewest ancillas among all with as many CNOTs or fewer, and less than twice the fewest CNOTs possible (or no more than the lightest check).  gate_optimal_verification_circuit ends as well.  Not so: the number of CNOTs need not be the least possible within max_ancillas.",
  "every CSS code, circuit, error type, additional faults, max_ancillas, solver that answers rightly (whichever of several right answers), history of calls",
  "minimality over all sets of measurements and all answers of the solver",
  ["src/mqt/qecc/ft_stateprep/state_prep.py:gate_optimal_verification_stabilizers", "src/mqt/qecc/ft_stateprep/state_prep.py:verification_stabilizers", "src/mqt/qecc/ft_stateprep/state_prep.py:gate_optimal_verification_circuit", "src/mqt/qecc/ft_stateprep/state_prep.py:iterative_search_with_timeout"])
p("C76", "Lifted product codes",
  "LiftedHgp of any two protographs and any lift gives binary matrices [a x I | I x b^T] and [I x b | a^T x I] of the documented sizes in which every X check meets every Z check an even number of times; checks are as heavy as their row of a and column of b have monomials, whatever the lift (exactly, if exponents within an entry differ modulo the lift); lift one is the hypergraph product of the monomial counts modulo 2.  BiasTailoredLiftedProduct gives pairwise commuting checks when there are as many X as Z checks, and raises ValueError otherwise, although the code exists.",
  "every pair of protographs (entries: any sums of monomials, any shapes) and lift",
  "all protographs, sizes and lifts",
  ["scripts/numerics/code_construct/lifted_hgp.py:LiftedHgp", "scripts/numerics/code_construct/lifted_hgp.py:BiasTailoredLiftedProduct"])
p("C77", "The figures of the colour code decoder show the measured points",
  "generate_plots draws, for each distance and logical operator, one curve with every result file exactly once - error rate, logical error rate and error bar of the same result - from left to right, likewise the decoding times, and over the distance the results at the chosen error rates at their own distances; what is drawn (or the exception) does not depend on the order in which the directory lists the files, as long as results for the same distance and error rate agree and the fit does not depend on the order of its samples.  The fit gets exactly the results strictly between the bounds.  The figures are drawn if there are one to four operators, a result at 0.01, and every distance or none has been measured at each chosen rate; otherwise it raises.  generate_plots_tn likewise.  Not so: the threshold panels of the operators 1, 2, 3 show and fit operator 0; a second result for one distance can be drawn at another distance.",
  "every list of result files (any distances, error rates, repetitions, order), list of chosen error rates, bounds, fit",
  "all sets of files and all orders in which a directory can be listed",
  ["src/mqt/qecc/cc_decoder/plots.py:generate_plots", "src/mqt/qecc/cc_decoder/plots.py:calculate_threshold", "src/mqt/qecc/cc_decoder/plots.py:plot_ler_vs_distance", "src/mqt/qecc/cc_decoder/plots.py:generate_plots_tn"])
p("C78", "Check matrices and results as text",
  "A file of lines of numbers is read as the matrix of these lines (entry 1 iff the number is not 0), whatever the blanks, tabs, carriage returns and signs, with or without a final newline, and a matrix written so is read back.  What is not a number, or is no int, ends its line in silence: every line is read as its longest front of separate numbers; a row with commas is read as its first entry, a row without separators as one entry (none when it is longer than ten digits and starts with 1).  Code(path) makes the code of the matrix when the first line has an entry and otherwise throws QeccException (two files: also when the first lines differ in length; nothing else is compared); a blank line at the end gives a code whose every syndrome throws.  Printed vectors and printed rectangular matrices differ when they differ, but a printed matrix is not read back.  The records of decoding results cannot be read from the JSON they write (an exception, after some fields were replaced); the numbers of a code can.  The names of enumerations in JSON are not those of the FromString functions, an unknown name in JSON is the first value (so FAILURE is read as success), and in Python the members of DecodingResultStatus have the names of two growth variants and hide them in the module.",
  "every text, matrix (ragged ones included), file system, code, result record, JSON value and name",
  "all texts and matrices",
  ["src/Utils.cpp:importGf2MatrixFromFile", "src/Utils.cpp:getStringFrom", "include/Code.hpp:ParityCheckMatrix", "include/Code.hpp:Code", "include/Decoder.hpp:DecodingResult", "include/Decoder.hpp:growthVariantFromString", "include/DecodingRunInformation.hpp:DecodingRunInformation", "include/DecodingSimulator.hpp:decoderTypeFromString", "src/python/bindings.cpp:PYBIND11_MODULE"])
p("C79", "Saved codes and computed distances can be read",
  "A matrix written by np.savetxt with fmt %i is read by importGf2MatrixFromFile as the matrix of its non-zero entries, and a code saved by save_code is, read from its two files by the C++ constructor, the code of these matrices; no other file is changed.  What the distance script printed is read as its key = value lines (comments and blank lines apart, the last value of a key counts), and the 3D function records n, n - rank hx - rank hz, dX and dZ.  Not so in 4D: the script prints dMx and dMz, the function wants dMX and dMZ, so that it raises KeyError for every code and records nothing.  A last line without a newline and without a comment loses the last character of its value (distance 12 is recorded as 1).",
  "every matrix of ints, path, file system, code, output of the script (any lines and numbers)",
  "all matrices and all outputs",
  ["src/mqt/qecc/analog_information_decoding/code_construction/code_constructor.py:save_code", "src/mqt/qecc/analog_information_decoding/code_construction/code_constructor.py:_compute_distances", "src/mqt/qecc/analog_information_decoding/code_construction/sparse_code_constructor.py:_compute_distances", "src/mqt/qecc/analog_information_decoding/code_construction/compute_distances.sh", "src/mqt/qecc/analog_information_decoding/code_construction/compute_distances_3D.sh", "src/Utils.cpp:importGf2MatrixFromFile"])
p("C80", "The result files of the colour code decoder",
  "A run of the decoder that fails - unknown lattice, an exception in the simulation, an unknown decoder on the command line - writes nothing; a successful one writes one file, its result.  Two runs write the same file exactly if they agree in directory, lattice, distance, the error rate rounded to four decimals and the last component of the solver's path; after any sequence of runs every result is there unless a later run wrote its file, so that with pairwise different keys the directory holds exactly the results, each once, and the figure drawn from it shows exactly these runs.  Rates more than 1/10000 apart, and those of run.sh, never collide; closer ones can, and an external program that is called z3 replaces the results of z3.  The tensor network decoder ignores lattice and solver.  generate_plots_comp draws for every directory the times of the distances 17 and 21 and, at the chosen rates, over its distances, as long as each rate has no result or as many as distances (otherwise ValueError); it never runs out of colours, but different solvers can have the same one.",
  "every sequence of runs (arguments, outcomes), initial state of the disk, order of the directory, list of directories and results",
  "all sequences of runs",
  ["src/mqt/qecc/cc_decoder/decoder.py:run", "src/mqt/qecc/cc_decoder/comparison/tn_decoder.py:run", "src/mqt/qecc/cc_decoder/cli.py:cli", "src/mqt/qecc/cc_decoder/run.sh", "src/mqt/qecc/cc_decoder/plots.py:generate_plots_comp"])
p("C81", "What the estimation of logical error rates of preparation circuits simulates",
  "The command that estimates the logical error rate of a state preparation circuit uses for each setting the last option that speaks of it (default |0>, heuristic synthesis, optimal verification, distance 3); it makes the code that is named (any name containing surface gives the surface code of the distance asked for, the colour codes are always those of distance 5 whatever distance is given) and refuses every other name with ValueError; it simulates the circuit of the file whose name spells state, kind and methods in the directory of this code, if there is one, and otherwise one synthesised and verified by the methods asked for - for the state, the error rate and the number of errors asked for.  Different settings have different file names and a directory belongs to one code, so that no circuit is ever taken for another code, state or method.  Of the circuits that come with the package exactly those that do not say non_ft can be reached; in particular --no_ver never loads any of them and changes nothing: the circuit simulated is a newly built, verified one.",
  "every command line, set of files that are there, codes, synthesis, verification and simulation procedures (which may raise)",
  "all command lines, and all behaviours of the procedures called",
  ["src/mqt/qecc/ft_stateprep/eval/estimate_logical_error_rate.py:main", "src/mqt/qecc/ft_stateprep/eval/circuits"])
from statements import S, A
for e in P:
    e["statement"] = S.get(e["id"], e["statement"]); e["anchors"] = A.get(e["id"], e["anchors"])
out = os.path.join(os.path.dirname(__file__), "..", "properties.jsonl")
with open(out, "w") as f:
    for e in P: f.write(json.dumps(e) + "\n")
print(len(P))
