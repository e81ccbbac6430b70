{
 "C03": {
  "note": "Equality with brute force for non-increasing marginals; refuted for geom with base < 1."
 },
 "C05": {
  "note": "Existence statement, computed with Coq's SpecFloat binary64."
 },
 "C07": {
  "note": "Full answer if set iteration order depends on the elements only; weaker statement for every order."
 },
 "C11": {
  "note": "For every networkx that computes maximum matchings and min-cost flows; MIP/CP back ends are external."
 },
 "C52": {
  "note": "PJR+ if the committee size divides the number of voters; refuted otherwise."
 },
 "C43": {
  "note": "For every exact solver (any choice among optimal solutions; satisfiable: RefSolver.v) the loop returns exactly the optimal committees; lexcc needs weights that are multiples of some u > 1e-8."
 },
 "C44": {
  "note": "All encodings, plus the public functions with each solver algorithm. geom with base <= 1 is rejected by the MIP algorithms (C44_geom_rejected)."
 },
 "C53": {
  "note": "Proved for weights >= 1; refuted: max_num_of_committees is ignored if fewer candidates are approved than seats; weights < 1 give RuntimeError; the 1e-7 tolerance admits non-optimal committees for large weights."
 },
 "C65": {
  "note": "PJR+ for Phragmén-Eneström and maximin support; refuted for the consensus rule."
 },
 "C66": {
  "note": "Refuted for E Pluribus Hugo and reverse-sequential PAV."
 },
 "C67": {
  "note": "Refuted for sequential PAV."
 },
 "C69": {
  "note": "Refuted for sequential PAV."
 },
 "C70": {
  "note": "Refuted for SAV, minimax AV and E Pluribus Hugo."
 },
 "C72": {
  "note": "For distinct names without commas and a faithful str() of numbers; refuted when the names differ."
 },
 "C74": {
  "note": "For exact solvers and formattable weights (int, or Python >= 3.12); two refutations mark the limits."
 },
 "C75": {
  "note": "For exact solvers; refuted for profiles without voters (max() of no payments)."
 },
 "C76": {
  "note": "For all rules and algorithms of C21; Python's str of numbers and textwrap.fill are parameters. Not for the float-fractions algorithms."
 },
 "C77": {
  "note": "For all rules and algorithms of C21. Numbers up to equality of rationals; Python's str of numbers is a parameter. Not for the float-fractions algorithms."
 },
 "C78": {
  "note": "Positive for sequential Phragmén's loads; five refutations list the sentences that are wrong."
 },
 "C79": {
  "note": "For any arithmetic satisfying float_ok (seq. Phragmén completion: small elections, weights at least 1) or any arithmetic at all (the other rules). Increment completion: RuntimeError excluded for weights >= 1 and at most 50 seats. No overflow, underflow or NaN."
 },
 "C80": {
  "note": "Sequential Phragmén with weights of at least 1 and k(n+9) <= 4400. Equality with the exact algorithm without near ties, in particular for small integer electorates; refuted for large electorates."
 },
 "C81": {
  "note": "textwrap.fill is a parameter; sets without names (with names: C76)."
 },
 "C82": {
  "note": "Size bounds: EPH at most 2100 voters; consensus rule k(6k+9+5n)max(1,W) <= 4300; Eneström 2^(k-1)(2.1n+20)max(1,W) <= 4300 (n voters of total weight W)."
 },
 "C83": {
  "note": "Sizes: (k+1)(1.1n+24)(K+1) <= 4000 and N^(k+2)(2K+4) < 5*10^11 for n voters of total weight at most N, with K = k (no completion, av), K = k*N (increment), and slightly stronger bounds for the Phragmén completion. Nothing is claimed for non-integer weights (C79 gives validity there)."
 },
 "C84": {
  "note": "The file system (os.walk, the parser of a file) is a universally quantified parameter."
 },
 "C85": {
  "note": "Solver algorithms under the contract libraries_ok; rules with fractions for exact arithmetic and enough_support (SpecSeq.v). Approval voting is not proportional (C85_av_refuted)."
 },
 "C86": {
  "note": "Exact arithmetic."
 },
 "C87": {
  "note": "Irresolute calls. The refuted theorems show which other rules count voters."
 },
 "C88": {
  "note": "The irresolute theorem covers every rule of SpecAll.listed and listed_short (sav with Fraction weights). C88_resolute_refuted shows that the resolute form fails for branch-and-bound."
 },
 "C89": {
  "note": "With the tolerances of the program (ACCURACY, CMP_ACCURACY) and the exact-solver oracle of C53. C89_minimax_refuted shows that minimax Phragmén lacks the property."
 },
 "C90": {
  "note": "C90_JR/C90_PJR/C90_EJR/C90_EJR_plus are equivalences for the definition of the rules, for all weight functions; C90_checked/C90_rules are about compute and properties.check_JR (optimises in SpecJR.v lists the rules and algorithms). The _refuted theorems show the rules without the guarantee."
 },
 "C91": {
  "note": "C91_sequential and C91_represents are about compute and thiele_score (score_of_id); the _spec theorems say the same of the definitions for all weight functions. C91_sequential_tight shows that the share cannot be improved for k = 2; the _refuted theorems concern rules without the guarantee."
 },
 "C92": {
  "note": "average_at_least/average_above (SpecDegree.v) quantify over groups that agree on l candidates, the _plus forms over groups that agree on a candidate outside the committee. C92_pav_spec holds for every quota above n/(k+1). C92_EJR_pav_degree_refuted: EJR and EJR+ do not give the average of PAV."
 },
 "C93": {
  "note": "approximate_core and disjoint_core are defined in SpecCore.v on top of SpecAxioms.v. C93_check ties the factor 1 to properties.check_core (brute-force). The _refuted theorems show that the factor cannot be replaced by 1 for PAV and that AV and CC do not reach it."
 },
 "C94": {
  "note": "misreports (SpecStrategy.v): one ballot is replaced, the weight and all other voters stay. util v W counts the members of W that v (with the honest ballot) approves. The _refuted theorems hold for all environments; C94_free_riding_refuted and C94_revseqpav_refuted involve no ties."
 }
}