{
 "C02": {
  "note": "Full statement for consistent systems; C02_luSolve_inconsistent_refuted records that inconsistent systems are answered silently."
 },
 "C03": {
  "note": "Exact on matching lengths; the zero vector is accepted whatever its length (C03_rowspace_zero_any_length)."
 },
 "C17": {
  "note": "All clauses for every odd d>=3 and every enumeration; the lower bound on the weight of a logical operator by peeling the lattice row by row. C17_check_if_logical_error_refuted records a defect of the code."
 },
 "C18": {
  "note": "All clauses for every odd d>=3 and every enumeration, the least weight by the same row-by-row argument."
 },
 "C35": {
  "note": "C35_single_faults_partial is the part of the claim that holds; C35_refuted shows that faults are missed for Shor's code, so the full claim is false of the code; C35_remaining_faults characterises the faults not covered."
 },
 "C08": {
  "note": "C08_exact_answer is exact; C08_equivalence_refuted and C08_sign_refuted show where the answer is not the expected one."
 },
 "C09": {
  "note": "C09_signed_group_refuted: equality is not equality of signed groups in general."
 },
 "C10": {
  "note": "C10_noncommuting_refuted, C10_logicals_refuted, C10_rejections_refuted: accepted or rejected unexpectedly."
 },
 "C15": {
  "note": "C15_self_dual_refuted: wrong in both directions with redundant rows."
 },
 "C22": {
  "note": "C22_failure_is_sticky_refuted: after one unsolvable call every call fails."
 },
 "C25": {
  "note": "Refuted for self-dual codes and wide syndromes, see the _refuted theorems."
 },
 "C27": {
  "note": "The claimed partition is refuted; what holds is C27_components_connected."
 },
 "C28": {
  "note": "Refuted in general (C28_decode_syndrome_refuted), true for components with an interior qubit."
 },
 "C29": {
  "note": "Termination refuted for disconnected graphs and three growth policies."
 },
 "C30": {
  "note": "Two-sided decoding is refuted for different matrices and for the order of the result."
 },
 "C32": {
  "note": "The syndrome is not always reproduced: see the _refuted theorems."
 },
 "C41": {
  "note": "Redundant checks: C41_redundant_refuted."
 },
 "C52": {
  "note": "C52_window_carry is exact; C52_carry_refuted and the following theorems show the departures."
 },
 "C55": {
  "note": "C55_word_error_bar: the error bar is the propagated one iff k = 1."
 },
 "C56": {
  "note": "C56_combine_refuted: totals are lost when results hold both sides."
 }
}