"""Statements sharpened while proving: what the code does, and where it departs from what a user expects."""
S = {}
S["C06"] = "For at least one qubit: is_pauli_string accepts exactly the non-empty strings with an optional sign over IXYZ; pauli_to_binary gives the X bits, the Z bits and the sign bit; binary_to_pauli_string(pauli_to_binary(p)) returns p up to an explicit leading '+', and pauli_to_binary(binary_to_pauli_string(b)) returns b for every vector b of odd length above one.  On zero qubits the round trip crashes."
S["C08"] = "stabilizer_equivalent(p1, p2) should hold iff p1 p2 is a stabilizer.  It answers True iff the binary form of p2, or the XOR of the binary forms of p1 and p2, is in the span of the generators' binary forms: for CSS-type codes, two X-type or two Z-type operators and p2 not itself a stabilizer this is exact, sign included; otherwise it is not symmetric (a p2 that is a stabilizer is equivalent to everything) and can be wrong about signs.  A wrong length raises ValueError."
S["C09"] = "Two StabilizerCode objects on equally many qubits compare equal iff their generators, as binary vectors with the sign column, span the same space, which is an equivalence relation and for CSS-type codes means the same signed stabilizer group.  In general it does not (XX,ZZ equals XX,YY but not XX,-YY).  Codes on different numbers of qubits compare unequal if the ranks differ and raise ValueError if they agree."
S["C10"] = "The constructor accepts a list of strings exactly when they are equally long Pauli strings, the distance is positive and given logicals are at most k of each kind, have the right length, commute with the generators and every logical Z anticommutes with exactly one logical X; then n is their length, k = n - rank and the generators are theirs.  Not true: accepted generators need not commute (X, Z gives k = -1), logicals need not pair up, a sign on only some generators is rejected or crashes, empty logical lists crash."
S["C15"] = "is_self_dual() returns True iff Hx and Hz have equally many rows and the row space of Hz is contained in that of Hx; with independent rows on both sides that is equality of the X and Z stabilizer groups.  With redundant rows it can be wrong in both directions."
S["C17"] = "For every odd distance d>=3 and every enumeration order of qubits and faces the hexagonal color code is constructed, has (3d^2+1)/4 qubits, half as many (rounded down) independent checks of weight 4 or 6 that overlap evenly, one logical qubit and recorded distance d, a logical operator of weight d, adjacency lists that match the check matrix, and the codes of two enumeration orders differ by a permutation; the LightsOut decoder returns a least-weight correction for every error; and no logical operator is lighter than d.  An even distance d>=2 is accepted but gives a code on (3d^2+2d)/4 qubits that encodes nothing, although its recorded distance is d.  Not true of the code: check_if_logical_error never reports a logical error."
S["C18"] = "For every odd distance d>=3 and every enumeration order the 4.8.8 code is constructed, has (d^2+2d-1)/2 qubits, half as many (rounded down) independent checks (squares of weight 4, octagons of weight 4 or 8) that overlap evenly, one logical qubit, recorded distance d, a logical operator of weight d, matching adjacency lists, and the enumeration order only permutes it; LightsOut returns a least-weight correction; and no logical operator is lighter than d.  Every even distance d>=2 raises."
S["C19"] = "For every torus size l,m >= 1 and every list of exponents the check matrices are l*m by 2*l*m, their entries are the sums of cyclic shifts, X and Z checks are orthogonal and every check has at most as many ones as there are exponents, of the same parity; each supported length gives a code with the advertised n, k and distance entry; every other length raises InvalidCSSCodeError."
S["C22"] = "With an optimising solver honouring its contract, solve returns a smallest switch set that turns every light off whenever one exists, so every error is corrected up to a zero-syndrome residual that is no heavier; if none exists it raises AssertionError.  Not so afterwards: the failed constraints stay in the solver and every later call fails too."
S["C25"] = "decode_x returns a least-weight estimate with the requested syndrome for every syndrome of an error, whatever calls were made before, also in a batch; so does decode_z for codes that are not self-dual and, if both matrices are the same, once an X table exists.  Not so: for self-dual codes decode_z before any X table raises KeyError, for self-dual codes with different matrices its answer has the wrong syndrome, and syndromes wider than int8 raise KeyError."
S["C26"] = "After any sequence of unions of vertices the forest is acyclic, Find returns the root reached along parents, two vertices have the same root iff they are connected by unions, the size stored at a root is the number of vertices in its tree and its check list holds exactly the checks of the tree; the smaller tree is attached to the larger one."
S["C27"] = "Each component computed from a node set is non-empty, duplicate-free, inside the set and connected within itself, and every node of the set is in or next to one.  It should be a partition into connected components; not so: a node can be in none of the components and in two of them."
S["C28"] = "For the syndrome of any error a component yields an estimate of distinct qubits, which satisfies every check in or next to the component whenever the component has an interior qubit (and is empty otherwise); decoding never throws (except with the random-qubit growth), a zero syndrome gives the zero estimate, and a single component with an interior qubit touching all checks gives the right syndrome.  Not so in general: decoding can finish with a wrong syndrome, and the estimate of a component can use qubits outside of it."
S["C29"] = "Growth only ever adds neighbours; with the all-components policy the node set strictly grows until it is closed, and decoding returns on every connected graph.  Not so: disconnected graphs, the InvalidComponents policy (always) and SingleSmallest can run forever, the random-qubit policy can dereference a null pointer."
S["C30"] = "A one-sided code is decoded with its matrix; a two-sided code whose matrices are the same is decoded half by half.  Expected but not so: setCode swaps the X and Z matrices and decode uses one matrix for both halves, fails when the row counts differ, and returns the two halves of the estimate in the opposite order of the error."
S["C32"] = "The heuristic decoder returns on every syndrome whose flagged checks are not empty, for every growth policy but one and any iteration order, with distinct qubits, at most one of them in each flagged check, so that a flagged check is satisfied iff an estimated qubit touches it.  Not so: the estimate need not reproduce the syndrome (unflagged or untouched checks), depends on the iteration order, decoding again without reset goes wrong, and a flagged empty check runs forever."
S["C34"] = "In every reachable state of the greedy elimination costs[i][j] = weight(ci+cj) - weight(cj) for all columns i,j; each step adds a CNOT that strictly reduces the number of ones and is the cheapest among unused columns, or starts a new layer; the CNOTs of a layer act on distinct qubits when depth is optimised; the loop ends for every code."
S["C35"] = "compute_fault_set for one error should contain, up to stabilizers, exactly the errors that one X (Z) fault anywhere in the CNOT circuit propagates to.  Every returned error is such a least-weight representative above the weight threshold and every fault behind a gate that has the qubit as its source (control for X, target for Z) is represented; faults before such a gate are initial faults of the qubit, which are trivial for one basis.  Not so: a fault on the other qubit of a CNOT that is later a source is missed for codes such as Shor's."
S["C36"] = "compute_fault_set for j errors and combine_faults return, up to stabilizers and without lighter-than-threshold errors, exactly the sums of exactly j single faults or single-qubit errors (plus the additional faults), each represented once by a least-weight error when reduced; a computed set is returned from the cache; too large j, a distance too small or an empty circuit raise."
S["C38"] = "Stabilizers returned by the verification search are products of the given checks, as many as asked for, of total weight within the bound, and every fault overlaps one of them in exactly one qubit (hence is detected); when the search reports none, no such set exists, and with one ancilla per fault and enough weight it succeeds; the optimal and the heuristic searches return layers that detect all faults of their fault sets; every measurement the heuristic chooses detects at least one of them.  Not so: a detecting set whose overlaps are odd but larger than one is not found."
S["C40"] = "The iterative search terminates for positive parameters and returns a solution at some parameter in range, or none at the largest after running into a time-out or failure there; the bisecting search then returns a parameter whose predecessor failed or timed out, and without time-outs and for a monotone predicate the least solvable parameter, provided it is at least 2.  Not so: when 1 is solvable the search evaluates parameter 0 and crashes; min 0 or a time-out of 0 never end."
S["C41"] = "With a solver honouring its contract and independent checks, the bounded-gate (bounded-depth) synthesis returns a circuit with that many CNOTs (layers) preparing the code state, or None exactly when no circuit with at most so many exists; the optimal circuits have the least number that suffices (from 2 on).  Not so for redundant checks: every returned circuit prepares a wrong state.  Zero or negative bounds raise."
S["C51"] = "For every H and number of rounds T, the multi-round matrix applied to (data errors, measurement errors) equals, round by round, H e_r + m_r + m_{r-1}; so an error history explains the difference syndromes iff noisy repeated measurement of the accumulated data error with measurement errors m_r gives that record, and every record is explained by some history."
S["C52"] = "After each window the committed correction is the accumulated data correction of the first half and the syndrome record carried over is the old record XOR the contribution of the committed correction exactly when the time correction of the middle round is zero; the last window commits the whole correction and leaves a zero syndrome when the decoder explains it.  A sample decodes the windows in order, its residual is error XOR committed corrections.  Not so: a non-zero time correction at the window boundary is dropped; rounds beyond the last full window, and runs shorter than a window, are never decoded; hard syndromes raise UnboundLocalError."
S["C53"] = "The analog matrix [H|I] accepts (e,v) for a syndrome s iff v = s XOR H e, so every syndrome is explainable; the first n bits are decoded as data; the single-stage matrix [H I; 0 M] accepts iff additionally the meta-checks hold; thresholding an analog syndrome gives the sign bits; in a sample the decoder gets exactly the syndrome and the log-likelihood ratios.  A sample counts as success iff the residual commutes with the logicals, also outside the code space; zero noise is rejected."
S["C54"] = "generate_err XORs into each qubit an X, Z or both, chosen by where one uniform draw falls among disjoint intervals of the three probabilities, and with probability zero leaves the residual unchanged; generate_syndr_err flips exactly the positions whose draw is below their probability; error_channel_setup splits the rate by the bias so that the sum is the rate; is_logical_err holds iff the residual overlaps a logical oddly, check_logical_err_h iff it raises the rank of H."
S["C55"] = "The word error rate is the per-logical-qubit rate giving the logical error rate; is_converged is True iff on both sides some but not all samples succeeded and the relative error bar is below the precision; so without failures a run never converges; the run loop counts samples and successes exactly.  Not so: the error bar of the word error rate is the propagated one only for one logical qubit; a run with no sample raises UnboundLocalError, and with a save interval of one convergence never stops the run."
S["C56"] = "Merging results that have the counts adds runs and successes and recomputes rates and error bars from the totals, keeps every other entry of the first result and does not depend on the order; a count missing in the first result is a KeyError.  Combining X and Z results gives the totals of each side if no result holds both; otherwise the X entries of the first result overwrite the X totals."
A = {"C51": ["src/mqt/qecc/analog_information_decoding/simulators/memory_experiment_v2.py:build_multiround_pcm", "src/mqt/qecc/analog_information_decoding/simulators/memory_experiment_v2.py:decode_multiround"],
     "C54": ["src/mqt/qecc/analog_information_decoding/utils/simulation_utils.py:generate_err", "src/mqt/qecc/analog_information_decoding/utils/simulation_utils.py:generate_syndr_err", "src/mqt/qecc/analog_information_decoding/utils/simulation_utils.py:error_channel_setup", "src/mqt/qecc/analog_information_decoding/utils/simulation_utils.py:is_logical_err"]}
