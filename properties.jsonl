{"id": "C01", "title": "Thiele score is the weighted sum of voters' cumulative marginals", "statement": "thiele_score(id, profile, committee) equals the sum over voters of weight times (f(1)+...+f(u)), where u is the number of approved candidates in the committee and f is the marginal score function named by id; the order in which Python iterates over the sets does not matter.", "quantifier": "all profiles (any number of voters, candidates, positive rational weights), all committees, all score functions pav/slav/cc/av/geomX/atleastN", "why_tests_cant": "the identity ranges over an infinite family of profiles, committees and set iteration orders", "anchors": ["abcvoting/scores.py:thiele_score", "abcvoting/scores.py:get_marginal_scorefct", "abcvoting/scores.py:cumulative_score"]}
{"id": "C02", "title": "Brute-force Thiele methods return exactly the optimal committees", "statement": "compute_thiele_method(id, profile, k, algorithm='brute-force', resolute=False) returns every committee of size k whose Thiele score is maximal, no other committee, and each once; with resolute=True it returns one of them.", "quantifier": "all profiles, committee sizes 1..num_cand and score functions with non-negative marginals", "why_tests_cant": "optimality compares with all C(m,k) committees on all profiles", "anchors": ["abcvoting/abcrules.py:_thiele_methods_bruteforce", "abcvoting/abcrules.py:compute_thiele_method"]}
{"id": "C03", "title": "Branch-and-bound never prunes an optimal committee", "statement": "For score functions with non-increasing non-negative marginals (pav, slav, cc, geomX with X>=1), algorithm='branch-and-bound' returns exactly the same list as algorithm='brute-force' (resolute=False) and an optimal committee (resolute=True).  For geomX with X<1 this is false: a concrete profile makes branch-and-bound find no committee at all and crash.", "quantifier": "all profiles, committee sizes and such score functions", "why_tests_cant": "a wrong pruning bound only shows on particular instances; absence of such instances needs an argument for all search trees", "anchors": ["abcvoting/abcrules.py:_thiele_methods_branchandbound", "abcvoting/scores.py:marginal_thiele_scores_add"]}
{"id": "C04", "title": "AV returns exactly the committees of maximal total approval weight", "statement": "compute_av(profile,k,resolute=False) returns exactly the committees of size k maximising the sum over members of the weight of their approvers, each once; resolute=True returns one of them, and the cutoff/tie bookkeeping never loses or invents a committee.  The same holds for SAV (each voter's weight split equally over its approved candidates) in exact arithmetic.", "quantifier": "all profiles, committee sizes, tie structures", "why_tests_cant": "tie structures are unbounded", "anchors": ["abcvoting/abcrules.py:compute_separable_rule", "abcvoting/abcrules.py:_separable_rule_algorithm", "abcvoting/abcrules.py:compute_av", "abcvoting/abcrules.py:compute_sav"]}
{"id": "C05", "title": "SAV with integer weights loses ties by float rounding", "statement": "Documented SAV ties are decided with IEEE double division when weights are ints: there is a profile in which two candidates have equal exact SAV score but the binary64 computation of compute_sav ranks one strictly above the other, so a winning committee is missing.", "quantifier": "existence: one profile, computed in a bit-exact model of binary64", "why_tests_cant": "a test shows one machine's behaviour; here the IEEE model derives it", "anchors": ["abcvoting/abcrules.py:_separable_rule_algorithm"]}
{"id": "C06", "title": "Sequential Thiele methods perform exactly the greedy procedure", "statement": "compute_seqpav/seqslav/seqcc/seq<thiele> with resolute=True returns the committee obtained by k times adding a candidate with maximal marginal score gain, ties broken in favour of the smallest index; with resolute=False the returned list is exactly the set of committees reachable by some tie-breaking in each round, each once.", "quantifier": "all profiles, committee sizes, tie-breaking histories", "why_tests_cant": "the number of tie-breaking histories is exponential", "anchors": ["abcvoting/abcrules.py:_seq_thiele_resolute", "abcvoting/abcrules.py:_seq_thiele_irresolute", "abcvoting/scores.py:marginal_thiele_scores_add"]}
{"id": "C07", "title": "Reverse-sequential Thiele methods perform exactly the reverse greedy procedure", "statement": "compute_revseqpav / revseq<thiele> with resolute=True returns the committee obtained from the set of all candidates by repeatedly removing a candidate whose removal loses least score (ties: largest index removed first); resolute=False returns exactly the committees reachable by some tie-breaking.", "quantifier": "all profiles, committee sizes, tie-breaking histories", "why_tests_cant": "same as C06; in addition the sentinel value max+1 must never be selected", "anchors": ["abcvoting/abcrules.py:_revseq_thiele_resolute", "abcvoting/abcrules.py:_revseq_thiele_irresolute", "abcvoting/scores.py:marginal_thiele_scores_remove"]}
{"id": "C08", "title": "Lexicographic CC returns the lexicographically optimal committees", "statement": "compute_lexcc(brute-force) returns exactly the committees whose vector (weight of voters with >=1, >=2, ..., >=k approved members) is lexicographically maximal.", "quantifier": "all profiles and committee sizes", "why_tests_cant": "lexicographic optimality over all committees", "anchors": ["abcvoting/abcrules.py:_lexcc_bruteforce"]}
{"id": "C09", "title": "Minimax AV returns exactly the committees minimising the maximal Hamming distance", "statement": "compute_minimaxav(brute-force) returns exactly the size-k committees minimising max_v |A_v symmetric-difference W|, although the scan starts from the bound num_cand+1.", "quantifier": "all profiles and committee sizes", "why_tests_cant": "optimality over all committees", "anchors": ["abcvoting/abcrules.py:_minimaxav_bruteforce", "abcvoting/scores.py:minimaxav_score", "abcvoting/misc.py:hamming"]}
{"id": "C10", "title": "Lex-minimax AV returns the leximin-optimal committees", "statement": "compute_lexminimaxav(brute-force) returns exactly the committees whose list of Hamming distances sorted in decreasing order is lexicographically smallest; for unit-weight profiles.", "quantifier": "all unit-weight profiles and committee sizes", "why_tests_cant": "lexicographic optimality over all committees", "anchors": ["abcvoting/abcrules.py:_lexminimaxav_bruteforce"]}
{"id": "C11", "title": "Monroe's rule maximises the number of voters represented in a balanced assignment", "statement": "compute_monroe(brute-force) returns exactly the committees maximising the maximum, over assignments of voters to members with every member representing floor(n/k) or ceil(n/k) voters, of the number of voters assigned to an approved member; both the matching- and the flow-based score computation equal that maximum.", "quantifier": "all unit-weight profiles, committee sizes, and all correct maximum-matching / min-cost-flow oracles", "why_tests_cant": "optimum over exponentially many assignments", "anchors": ["abcvoting/abcrules.py:_monroe_bruteforce", "abcvoting/scores.py:monroescore", "abcvoting/scores.py:monroescore_matching", "abcvoting/scores.py:monroescore_flowbased"]}
{"id": "C12", "title": "Greedy Monroe is well defined and follows Greedy Monroe", "statement": "compute_greedy_monroe always returns exactly one committee of k distinct candidates; in each round it picks the remaining candidate approved by the most remaining voters (smallest index on ties) and removes min(|supporters|, floor or ceil of n/k) of its supporters.", "quantifier": "all unit-weight profiles and committee sizes", "why_tests_cant": "the loop's index arithmetic must hold for every n, k", "anchors": ["abcvoting/abcrules.py:_greedy_monroe_algorithm"]}
{"id": "C13", "title": "Sequential Phragmén elects the candidate with the smallest new maximum load", "statement": "compute_seqphragmen (exact fractions) selects in each round a candidate minimising (1 + sum of supporters' weighted loads)/(supporters' weight), with the smallest index in the resolute case and over all ties in the irresolute one; loads are then as defined by Phragmén's method.  When every approved candidate's supporters weigh at least 1 it never elects a candidate twice and elects unapproved candidates only when no approved one is left.  With fractional weights below 1 this fails.", "quantifier": "all profiles, committee sizes, tie-breaking histories", "why_tests_cant": "sentinel constants committeesize+1/+2 are compared with data-dependent loads", "anchors": ["abcvoting/abcrules.py:_seqphragmen_resolute", "abcvoting/abcrules.py:_seqphragmen_irresolute"]}
{"id": "C14", "title": "Equal Shares: every elected candidate is paid exactly 1 and no voter overspends", "statement": "In compute_equal_shares every phase-1 candidate is bought at the smallest feasible rho, its supporters pay in total exactly 1, budgets never become negative, and total initial budget is k; hence at most k candidates are bought in phase 1 and phase 1 ends only when no remaining candidate is affordable.", "quantifier": "all profiles, committee sizes, tie-breaking histories", "why_tests_cant": "budgets are rationals produced by unbounded computations", "anchors": ["abcvoting/abcrules.py:_equal_shares_algorithm"]}
{"id": "C15", "title": "Equal Shares completions always produce exactly k candidates", "statement": "With completion='seqphragmen' or 'av' every returned committee has exactly k candidates and contains the phase-1 committee; AV completion adds exactly the top-(k-|C|) remaining candidates by approval weight (all ties when resolute=False); increment completion terminates with a committee of size k for weights >= 1, and raises RuntimeError for some smaller weights.", "quantifier": "all profiles, committee sizes", "why_tests_cant": "termination bound of the increment loop depends on all data", "anchors": ["abcvoting/abcrules.py:compute_equal_shares", "abcvoting/abcrules.py:_equal_shares_algorithm"]}
{"id": "C16", "title": "Phragmén-Eneström elects the candidate with the largest remaining support", "statement": "compute_phragmen_enestroem (exact fractions) selects in each of k rounds a remaining candidate with maximal supporting budget (initially voter weights), charging supporters the price (total weight)/k in proportion to their budgets, or all they have; every outcome has k distinct candidates and every tie-breaking is explored when resolute=False.", "quantifier": "all profiles, committee sizes, tie-breaking histories", "why_tests_cant": "unbounded histories", "anchors": ["abcvoting/abcrules.py:_phragmen_enestroem_algorithm"]}
{"id": "C17", "title": "Consensus rule conserves the total budget and elects k distinct candidates", "statement": "compute_consensus_rule runs k rounds; in each the budgets of voters grow by their weight and the selected candidate's supporters pay in total exactly the price; outcomes are the committees reachable by ties.", "quantifier": "all profiles, committee sizes, tie-breaking histories", "why_tests_cant": "unbounded histories", "anchors": ["abcvoting/abcrules.py:_consensus_rule_algorithm"]}
{"id": "C18", "title": "Trivial rule returns all committees", "statement": "compute_trivial_rule(resolute=False) returns each of the C(num_cand,k) committees exactly once; resolute=True returns the committee {0..k-1}.", "quantifier": "all profiles and committee sizes", "why_tests_cant": "for every num_cand and k", "anchors": ["abcvoting/abcrules.py:compute_trivial_rule"]}
{"id": "C19", "title": "Random serial dictator returns a valid committee for every random outcome", "statement": "For every permutation of voters (and every random choice) compute_rsd returns one committee of exactly k distinct candidates, obtained by serving voters in that order.", "quantifier": "all profiles, committee sizes and all outcomes of the random source", "why_tests_cant": "randomness is a quantifier over outcomes", "anchors": ["abcvoting/abcrules.py:compute_rsd"]}
{"id": "C20", "title": "E Pluribus Hugo eliminates one candidate per round until k remain", "statement": "compute_eph ends with committees of exactly k candidates reached by eliminating, in each round, a candidate with least approvals among those with the two lowest (tied) point scores; num_cand=k=1 raises IndexError.", "quantifier": "all profiles, committee sizes, tie-breaking histories", "why_tests_cant": "unbounded histories", "anchors": ["abcvoting/abcrules.py:_eph_algorithm"]}
{"id": "C21", "title": "Every rule returns a non-empty list of distinct valid committees", "statement": "For valid parameters, every modelled compute_* function returns (does not raise) a non-empty list without duplicates; each committee consists of exactly k distinct candidates from 0..num_cand-1 (at most k for equal shares without completion).", "quantifier": "all rules, profiles with weights as stated per rule, committee sizes, resolute flags", "why_tests_cant": "universally quantified over inputs", "anchors": ["abcvoting/abcrules.py:compute"]}
{"id": "C22", "title": "resolute and max_num_of_committees only restrict the irresolute answer", "statement": "A resolute result is a single committee that is a member of the irresolute result; max_num_of_committees=n returns min(n, #winners) committees, all of them winners.", "quantifier": "all rules, profiles, committee sizes, n>=1", "why_tests_cant": "universally quantified over inputs and histories", "anchors": ["abcvoting/abcrules.py:compute"]}
{"id": "C23", "title": "Parameter checking accepts exactly the documented parameters", "statement": "verify_compute_parameters raises ValueError / UnknownAlgorithm / NotImplementedError exactly when committeesize<1, committeesize>num_cand, the profile is empty, the algorithm or resolute flag is unsupported, or max_num_of_committees is non-positive or combined with resolute=True; otherwise it accepts.", "quantifier": "all parameter combinations", "why_tests_cant": "decision over infinite parameter space", "anchors": ["abcvoting/abcrules.py:Rule.verify_compute_parameters"]}
{"id": "C24", "title": "sorted_committees is a deterministic sorted permutation", "statement": "sorted_committees(cs) contains exactly the given committees as sets, sorted by their printed form, and two lists with the same committees in any order give the same result; committees with duplicate members raise ValueError.", "quantifier": "all lists of committees", "why_tests_cant": "all permutations of all lists", "anchors": ["abcvoting/misc.py:sorted_committees", "abcvoting/misc.py:str_set_of_candidates", "abcvoting/misc.py:CandidateSet"]}
{"id": "C25", "title": "compare_list_of_committees is set equality", "statement": "compare_list_of_committees(a,b) is True iff every committee of a occurs (as a set) in b and vice versa; it is reflexive, symmetric and transitive, and insensitive to order and multiplicity.", "quantifier": "all lists of committees", "why_tests_cant": "all inputs", "anchors": ["abcvoting/misc.py:compare_list_of_committees", "abcvoting/misc.py:verify_expected_committees_equals_actual_committees"]}
{"id": "C26", "title": "Profile invariants hold after any sequence of operations", "statement": "Starting from Profile(num_cand), after any sequence of add_voter, add_voters, item assignment, convert_to_unit_weights and convert_to_weighted (successful or raising) every voter's approval set is duplicate free, within 0..num_cand-1, with weight > 0, and num_cand and cand_names length never change.", "quantifier": "all operation histories", "why_tests_cant": "histories are unbounded", "anchors": ["abcvoting/preferences.py:Profile", "abcvoting/preferences.py:Voter", "abcvoting/misc.py:CandidateSet"]}
{"id": "C27", "title": "Weight conversions preserve the election", "statement": "convert_to_weighted and convert_to_unit_weights (integer weights) preserve total weight, support weight of every candidate, and the Thiele score of every committee; unit conversion yields all weights 1 and weighted conversion yields pairwise different approval sets; non-integer weights raise TypeError and leave the profile unchanged.", "quantifier": "all profiles", "why_tests_cant": "all profiles", "anchors": ["abcvoting/preferences.py:Profile.convert_to_unit_weights", "abcvoting/preferences.py:Profile.convert_to_weighted", "abcvoting/preferences.py:Profile.total_weight"]}
{"id": "C28", "title": "An integer weight w means w identical voters", "statement": "For the Thiele methods (optimal, sequential, reverse), AV, lexcc, minimax AV, sequential Phragmén, Eneström-Phragmén, the consensus rule, Equal Shares with all completions and E Pluribus Hugo, replacing a voter of integer weight w by w copies of weight 1 does not change the returned committees; neither do convert_to_unit_weights and convert_to_weighted.", "quantifier": "all profiles with positive integer weights, committee sizes", "why_tests_cant": "all profiles", "anchors": ["abcvoting/preferences.py:Voter", "abcvoting/abcrules.py:compute"]}
{"id": "C29", "title": "Rules are anonymous and independent of set iteration order", "statement": "Reordering the voters of a profile (or the internal iteration order of approval sets) does not change the list returned by compute, for every rule with and without completion and every exact or solver-based algorithm. Greedy Monroe is an exception (refuted): which of a candidate's supporters it represents depends on the order of the voters.", "quantifier": "all profiles and permutations of voters", "why_tests_cant": "all permutations", "anchors": ["abcvoting/abcrules.py:compute"]}
{"id": "C30", "title": "dominate is Pareto dominance", "statement": "dominate(profile,W1,W2) is True iff no voter has fewer approved candidates in W1 than in W2 and some voter has more; it is irreflexive, asymmetric and transitive.", "quantifier": "all profiles and committees", "why_tests_cant": "all inputs", "anchors": ["abcvoting/misc.py:dominate"]}
{"id": "C31", "title": "Set helpers are mathematically correct", "statement": "hamming is the size of the symmetric difference and a metric; powerset yields every subset (up to max_size) exactly once; binom(n,k) is the number of k-subsets of an n-set, 0 when k>n.", "quantifier": "all sets and numbers", "why_tests_cant": "all inputs", "anchors": ["abcvoting/misc.py:hamming", "abcvoting/misc.py:powerset", "abcvoting/misc.py:binom"]}
{"id": "C32", "title": "Pareto optimality check is exact", "statement": "check_pareto_optimality(brute-force) returns True iff no committee of the same size dominates the given one.", "quantifier": "all profiles and committees", "why_tests_cant": "quantifies over all committees", "anchors": ["abcvoting/properties.py:check_pareto_optimality", "abcvoting/properties.py:_check_pareto_optimality_brute_force"]}
{"id": "C33", "title": "JR check is exact", "statement": "check_JR returns True iff there is no group of voters of total weight >= W/k with a commonly approved candidate and no member approving a committee member.", "quantifier": "all profiles and committees", "why_tests_cant": "quantifies over all voter groups", "anchors": ["abcvoting/properties.py:check_JR", "abcvoting/properties.py:_check_JR"]}
{"id": "C34", "title": "EJR and PJR brute-force checks are exact for unit weights", "statement": "For unit-weight profiles check_EJR / check_PJR (brute-force, default quota) return True iff no group of at least l*n/k voters with l common candidates is deprived as in the definition of EJR / PJR.  For weighted profiles the answer can be wrong.", "quantifier": "all unit-weight profiles and committees", "why_tests_cant": "quantifies over all voter groups", "anchors": ["abcvoting/properties.py:check_EJR", "abcvoting/properties.py:_check_EJR_brute_force", "abcvoting/properties.py:check_PJR", "abcvoting/properties.py:_check_PJR_brute_force"]}
{"id": "C35", "title": "EJR+ check is exact", "statement": "check_EJR_plus (default quota) returns True iff there is no l, unelected candidate c and group of >= l*n/k voters approving c all having fewer than l approved members.", "quantifier": "all profiles and committees", "why_tests_cant": "quantifies over all groups", "anchors": ["abcvoting/properties.py:check_EJR_plus"]}
{"id": "C36", "title": "FJR and core checks are exact", "statement": "check_FJR and check_core (brute-force) return True iff no weakly (l,T)-cohesive group resp. no blocking coalition exists.", "quantifier": "all profiles and committees, all quotas > 0", "why_tests_cant": "quantifies over all groups and all candidate sets", "anchors": ["abcvoting/properties.py:check_FJR", "abcvoting/properties.py:check_core", "abcvoting/properties.py:_check_core_brute_force"]}
{"id": "C37", "title": "Logical implications between axioms hold for the library's checks", "statement": "Whenever check_core is True check_FJR is True; FJR implies EJR, EJR implies PJR, PJR implies JR, EJR+ implies EJR.", "quantifier": "all unit-weight profiles and committees", "why_tests_cant": "implication over all inputs", "anchors": ["abcvoting/properties.py:full_analysis"]}
{"id": "C38", "title": "PAV satisfies EJR+ (hence EJR, PJR, JR)", "statement": "Every committee returned by compute_pav (brute force or branch-and-bound) passes check_EJR_plus, check_EJR, check_PJR, check_JR.", "quantifier": "all unit-weight profiles and committee sizes", "why_tests_cant": "theorem of the rule, all inputs", "anchors": ["abcvoting/abcrules.py:compute_pav", "abcvoting/properties.py:check_EJR_plus"]}
{"id": "C39", "title": "Optimal Thiele committees are Pareto optimal", "statement": "Every committee returned by compute_pav, compute_slav or another Thiele method with positive marginals, and by AV, passes check_pareto_optimality.", "quantifier": "all profiles and committee sizes", "why_tests_cant": "all inputs", "anchors": ["abcvoting/abcrules.py:compute_pav", "abcvoting/properties.py:check_pareto_optimality"]}
{"id": "C40", "title": "CC and seq-CC and greedy Monroe satisfy JR", "statement": "Every committee returned by compute_cc, compute_seqcc and compute_greedy_monroe passes check_JR.", "quantifier": "all unit-weight profiles and committee sizes", "why_tests_cant": "all inputs", "anchors": ["abcvoting/abcrules.py:compute_cc", "abcvoting/abcrules.py:compute_seqcc", "abcvoting/abcrules.py:compute_greedy_monroe"]}
{"id": "C41", "title": "Equal Shares satisfies EJR+", "statement": "Every committee returned by compute_equal_shares (exact fractions; no completion, seqphragmen or av completion) passes check_EJR_plus and check_JR, and check_EJR and check_PJR on unit-weight profiles.  The increment completion does not have this guarantee: it can violate even JR.", "quantifier": "all profiles (weighted for EJR+ and JR) and committee sizes", "why_tests_cant": "all inputs", "anchors": ["abcvoting/abcrules.py:compute_equal_shares", "abcvoting/properties.py:check_EJR_plus"]}
{"id": "C42", "title": "Sequential Phragmén satisfies PJR", "statement": "Every committee returned by compute_seqphragmen (exact fractions, every approved candidate sufficiently supported) satisfies PJR (even PJR+), passes check_JR, and passes check_PJR on unit-weight profiles.", "quantifier": "all unit-weight profiles and committee sizes", "why_tests_cant": "all inputs", "anchors": ["abcvoting/abcrules.py:compute_seqphragmen", "abcvoting/properties.py:check_PJR"]}
{"id": "C43", "title": "Solver-based rules agree with brute force", "statement": "Given a correct solver, the iterate-and-exclude loops used with gurobi / mip / ortools return exactly the optimal committees (all of them when resolute=False, at most max_num otherwise), each once, and terminate.", "quantifier": "all profiles, committee sizes and all correct solvers (any choice among optimal solutions)", "why_tests_cant": "quantifies over all solver behaviours", "anchors": ["abcvoting/abcrules_gurobi.py:_optimize_rule_gurobi", "abcvoting/abcrules_mip.py:_optimize_rule_mip", "abcvoting/abcrules_ortools.py:_optimize_rule_ortools"]}
{"id": "C44", "title": "ILP encodings express the rule's objective", "statement": "For the Thiele / CC / minimaxav / Monroe encodings: the optimum of the integer program restricted to a committee equals the committee's score, so the ILP optimum is attained exactly by the winning committees.", "quantifier": "all profiles and committee sizes", "why_tests_cant": "quantifies over all integer assignments", "anchors": ["abcvoting/abcrules_gurobi.py:_gurobi_thiele_methods", "abcvoting/abcrules_mip.py:_mip_thiele_methods", "abcvoting/abcrules_ortools.py:_ortools_cc"]}
{"id": "C45", "title": "Reading back a written Preflib file gives the same election", "statement": "read_preflib_file(write_profile_to_preflib_cat_file(profile)) with use_weights=True gives a profile with the same candidates and names and, per approval set, the same total weight, so all rules give the same results, for positive integer weights (fractional weights are lost: refuted).", "quantifier": "all profiles with integer weights", "why_tests_cant": "all profiles", "anchors": ["abcvoting/fileio.py:write_profile_to_preflib_cat_file", "abcvoting/fileio.py:read_preflib_file"]}
{"id": "C46", "title": "YAML round trip preserves the instance", "statement": "Writing an instance with write_abcvoting_instance_to_yaml_file and reading it with read_abcvoting_yaml_file yields the same num_cand, voters, weights, committee size and compute instances; every file read successfully is a valid election; candidate names are lost, and a file without committee size cannot be rewritten (both refuted).", "quantifier": "all profiles", "why_tests_cant": "all profiles", "anchors": ["abcvoting/fileio.py:write_abcvoting_instance_to_yaml_file", "abcvoting/fileio.py:read_abcvoting_yaml_file"]}
{"id": "C47", "title": "Output verbosity is monotone", "statement": "A message of level l is printed iff l >= the verbosity in force; raising the threshold never prints more; a logger receives every message whatever the verbosity.", "quantifier": "all verbosity settings and call sequences", "why_tests_cant": "all histories", "anchors": ["abcvoting/output.py"]}
{"id": "C48", "title": "Profile.copy is an independent equal election", "statement": "profile.copy() has the same candidates and voters, and no later operation on the copy changes the original; candidate names are not preserved (a defect).", "quantifier": "all profiles and operation histories", "why_tests_cant": "all histories", "anchors": ["abcvoting/preferences.py:Profile.copy"]}
{"id": "C49", "title": "is_party_list characterises disjoint-or-equal approval sets", "statement": "is_party_list() is True iff any two voters' approval sets are equal or disjoint.", "quantifier": "all profiles", "why_tests_cant": "all profiles", "anchors": ["abcvoting/preferences.py:Profile.is_party_list"]}
{"id": "C50", "title": "fastest_available_algorithm returns a usable algorithm", "statement": "For every rule, 'fastest' resolves to the first algorithm of the rule that is installed, or NoAvailableAlgorithm is raised iff none is; the result always passes the algorithm check, and pure-Python rules always have one.", "quantifier": "all rules and all subsets of installed solvers", "why_tests_cant": "all installations", "anchors": ["abcvoting/abcrules.py:Rule.fastest_available_algorithm", "abcvoting/abcrules.py:_available_algorithms"]}
{"id": "C51", "title": "Priceability implies PJR, stable priceability implies the core", "statement": "If check_priceability is True (given a correct solver) on a unit-weight profile and a committee of size k then check_PJR is True; if check_stable_priceability is True then check_core is True.", "quantifier": "all profiles and committees, all correct solvers", "why_tests_cant": "all inputs", "anchors": ["abcvoting/properties.py:check_priceability", "abcvoting/properties.py:check_stable_priceability", "abcvoting/properties.py:check_core"]}
{"id": "C52", "title": "Monroe and Greedy Monroe: JR always, PJR if k divides n", "statement": "Every committee returned by compute_monroe passes check_JR; if the committee size divides the number of voters, every committee returned by compute_monroe or compute_greedy_monroe passes check_PJR (and satisfies PJR+). Without divisibility both can violate PJR.", "quantifier": "all unit-weight profiles and committee sizes, all correct matching/flow routines", "why_tests_cant": "all profiles and all voter groups", "anchors": ["abcvoting/abcrules.py:compute_monroe", "abcvoting/abcrules.py:compute_greedy_monroe", "abcvoting/properties.py:check_PJR", "abcvoting/properties.py:check_JR"]}
{"id": "C53", "title": "Minimax and leximax Phragmén with a solver", "statement": "With exact solvers, compute_minimaxphragmen (gurobi, mip-*) returns exactly the committees whose largest voter load can be made minimal (up to the 1e-7 tolerance), compute_leximaxphragmen those whose ordered loads are lexicographically minimal (up to the tolerances 1e-8/1e-7); lexicographic_tiebreaking returns the first winning committee; with fewer approved candidates than seats all approved candidates are elected.", "quantifier": "all profiles with weights >= 1, committee sizes, all exact solvers", "why_tests_cant": "all profiles and all solver behaviours", "anchors": ["abcvoting/abcrules.py:compute_minimaxphragmen", "abcvoting/abcrules.py:compute_leximaxphragmen", "abcvoting/abcrules_gurobi.py:_gurobi_minimaxphragmen", "abcvoting/abcrules_gurobi.py:_gurobi_leximaxphragmen", "abcvoting/abcrules_mip.py:_mip_minimaxphragmen"]}
{"id": "C54", "title": "Maximin support method", "statement": "With exact solvers, compute_maximin_support returns exactly the committees that result from adding one candidate at a time, each maximising (up to 1e-7) the support that all members can be given simultaneously; resolute picks the smallest candidate in each round.", "quantifier": "all profiles, weights, committee sizes, all exact solvers", "why_tests_cant": "all profiles and all solver behaviours", "anchors": ["abcvoting/abcrules.py:compute_maximin_support", "abcvoting/abcrules_gurobi.py:_gurobi_maximin_support_scorefct", "abcvoting/abcrules_mip.py:_mip_maximin_support_scorefct"]}
{"id": "C55", "title": "compute(rule_id, ...) computes the named rule, with the documented defaults", "statement": "compute(id, ...) returns the winning committees of the rule named id for every listed rule and algorithm; omitting resolute uses the first value the rule supports, omitting max_num_of_committees means no limit, omitting algorithm means the fastest available one; with result=expected the call returns iff the committees match; an unknown id or keyword raises.", "quantifier": "all rule ids, profiles, committee sizes, keyword arguments", "why_tests_cant": "universally quantified over ids, inputs and arguments", "anchors": ["abcvoting/abcrules.py:compute", "abcvoting/abcrules.py:Rule", "abcvoting/misc.py:verify_expected_committees_equals_actual_committees"]}
{"id": "C56", "title": "The solver-based axiom checks are exact for all weights", "statement": "With algorithm 'gurobi' or 'fastest' and a correct solver, check_pareto_optimality, check_EJR, check_PJR, check_FJR and check_core return True exactly if the committee satisfies the axiom, for arbitrary positive voter weights and quotas; they agree with 'brute-force' (EJR and PJR: for unit weights).", "quantifier": "all profiles, weights, committees, quotas and all correct solvers", "why_tests_cant": "The encodings quantify over all voter groups and candidate sets; tests cover a few profiles with unit weights.", "anchors": ["abcvoting/properties.py:_check_pareto_optimality_gurobi", "abcvoting/properties.py:_check_EJR_gurobi", "abcvoting/properties.py:_check_PJR_gurobi", "abcvoting/properties.py:_check_FJR_gurobi", "abcvoting/properties.py:_check_core_gurobi"]}
{"id": "C57", "title": "Sequential Phragmén and Equal Shares are priceable", "statement": "Every committee returned by seqphragmen, and by equal-shares without completion or with the seqphragmen completion, passes check_priceability (given a correct solver).", "quantifier": "all valid calls, exact arithmetic, all correct solvers", "why_tests_cant": "all inputs", "anchors": ["abcvoting/abcrules.py:compute_seqphragmen", "abcvoting/abcrules.py:compute_equal_shares", "abcvoting/properties.py:check_priceability"]}
{"id": "C58", "title": "Reading Preflib files: which candidates become approved", "statement": "read_preflib_file gives, per ballot, the candidates of the first top_ranks ranks, or the shortest prefix of ranks with at least setsize candidates; use_weights=True gives one voter per distinct ballot with its count as weight, use_weights=False that many voters; both parameters at once, negative values and unsuitable files are rejected (top_ranks=0 is not: refuted).", "quantifier": "all parsed files and parameters", "why_tests_cant": "universally quantified over ballots and parameters", "anchors": ["abcvoting/fileio.py:read_preflib_file", "abcvoting/fileio.py:_approval_set_from_preflib_datastructures"]}
{"id": "C59", "title": "check and full_analysis report the properties correctly", "statement": "check(name, ...) returns True exactly if the committee has the named property and rejects unknown names and quotas for properties without quota; full_analysis reports all nine properties correctly, prints one line each and restores the verbosity (unless a check raises: refuted).", "quantifier": "all profiles, committees, property names, quotas, algorithms and correct solvers", "why_tests_cant": "universally quantified over elections and committees", "anchors": ["abcvoting/properties.py:check", "abcvoting/properties.py:full_analysis"]}
{"id": "C60", "title": "Random profiles are valid and follow the specification", "statement": "random_profile(num_voters, num_cand, prob_distribution) returns a valid profile with num_cand candidates, num_voters unit-weight voters that are exactly the samples of the documented sampler called with the documented arguments; fixed-size distributions give approval sets of size setsize under exact arithmetic (refuted for binary64 arithmetic: setsize=1 of 49 candidates); unknown ids and missing or undocumented parameters are rejected; point distributions use the dimension in their name.", "quantifier": "all distributions, parameters, and samplers keeping prefsampling's contract", "why_tests_cant": "random outputs and all parameter combinations", "anchors": ["abcvoting/generate.py:random_profile", "abcvoting/generate.py:prefsampling_wrapper", "abcvoting/generate.py:PointProbabilityDistribution"]}
{"id": "C61", "title": "Rules are neutral: candidate numbers do not matter", "statement": "Renumbering the candidates by any permutation (and reordering the voters at the same time) renumbers the members of the returned committees and changes nothing else, for every rule with resolute=False and every exact or solver-based algorithm.", "quantifier": "all profiles, permutations of candidates and voters, committee sizes, rules, algorithms and correct solvers", "why_tests_cant": "all permutations and profiles; includes every solver answer", "anchors": ["abcvoting/abcrules.py:compute", "abcvoting/abcrules_gurobi.py", "abcvoting/abcrules_mip.py", "abcvoting/abcrules_ortools.py"]}
{"id": "C62", "title": "Rules are homogeneous: the unit of the weights does not matter", "statement": "Multiplying all voter weights by the same positive number does not change the returned committees, for every rule except minimax/leximax Phragmén and maximin support (absolute tolerance; refuted for maximin support) and the rules that require unit weights.", "quantifier": "all profiles, positive rational factors, committee sizes, rules, algorithms and correct solvers", "why_tests_cant": "all weights and factors", "anchors": ["abcvoting/abcrules.py:compute", "abcvoting/misc.py:CMP_ACCURACY"]}
{"id": "C63", "title": "AV, SAV, sequential Thiele, reverse-sequential Thiele, sequential Phragmén, maximin support, the consensus rule and the trivial rule are committee monotone", "statement": "For these rules, every committee returned for k seats is contained in one returned for k+1 seats, and every committee returned for k+1 seats contains one returned for k seats; with resolute=True the committee for k seats is contained in the one for k+1 seats. (Refuted for optimal PAV.)", "quantifier": "all profiles and committee sizes, all correct solvers", "why_tests_cant": "relates the results of two calls for all profiles", "anchors": ["abcvoting/abcrules.py:compute_seqpav", "abcvoting/abcrules.py:compute_revseqpav", "abcvoting/abcrules.py:compute_seqphragmen", "abcvoting/abcrules.py:compute_maximin_support", "abcvoting/abcrules.py:compute_consensus_rule", "abcvoting/abcrules.py:compute_av", "abcvoting/abcrules.py:compute_sav"]}
{"id": "C64", "title": "Which committee resolute=True returns", "statement": "For AV, SAV, the Thiele methods with algorithm brute-force and the trivial rule, resolute=True returns the winning committee that comes first when committees are compared by candidate numbers; for branch-and-bound and the other brute-force algorithms it returns the first committee of the list returned with resolute=False. The two differ (refuted: algorithms agree) as soon as there are more than ten candidates.", "quantifier": "all profiles, committee sizes and score functions", "why_tests_cant": "all profiles with ties", "anchors": ["abcvoting/abcrules.py:_thiele_methods_bruteforce", "abcvoting/abcrules.py:_thiele_methods_branchandbound", "abcvoting/abcrules.py:_separable_rule_algorithm", "abcvoting/abcrules.py:_lexcc_bruteforce", "abcvoting/abcrules.py:_minimaxav_bruteforce", "abcvoting/abcrules.py:_monroe_bruteforce"]}
{"id": "C65", "title": "Phragmén-Eneström and maximin support are proportional (PJR); the consensus rule is not", "statement": "Every committee returned by compute_phragmen_enestroem (exact fractions) and by compute_maximin_support (correct solver, total weight large compared with the 1e-7 tolerance) satisfies PJR and PJR+ with respect to the Hare quota, hence passes check_JR and check_PJR. (Refuted for the consensus rule, even with disjoint parties.)", "quantifier": "all profiles, committee sizes, resolute/irresolute results and correct solvers", "why_tests_cant": "all profiles and all groups of voters of each profile", "anchors": ["abcvoting/abcrules.py:compute_phragmen_enestroem", "abcvoting/abcrules.py:compute_maximin_support", "abcvoting/abcrules.py:compute_consensus_rule", "abcvoting/properties.py:check_PJR"]}
{"id": "C66", "title": "Additional approvals do not hurt a candidate", "statement": "If some voters additionally approve candidate c and nothing else changes, and c was in some committee returned by compute(rule_id, ..., resolute=False), then c is in some committee returned for the new profile: for AV, SAV, all optimal and sequential Thiele methods, lexicographic CC, Monroe, minimax AV, lexminimax AV, sequential and minimax Phragmén, maximin support, Phragmén-Eneström, the consensus rule, the trivial rule and Equal Shares (all completions except increment). (Refuted for E Pluribus Hugo and reverse-sequential PAV.)", "quantifier": "all profiles, all sets of voters gaining the approval, committee sizes, algorithms and correct solvers", "why_tests_cant": "relates two profiles, for all profiles and changes", "anchors": ["abcvoting/abcrules.py:compute"]}
{"id": "C67", "title": "Electorates that agree keep their winners when joined", "statement": "For AV, SAV, the optimal Thiele methods, lexicographic CC, lexminimax AV and the trivial rule: if the results for two profiles over the same candidates have a committee in common, the result for the joint profile (all voters of both) is exactly the intersection of the two results; for minimax AV the common committees win in the joint election. (Refuted for sequential PAV.)", "quantifier": "all pairs of profiles, committee sizes, algorithms and correct solvers", "why_tests_cant": "relates three calls for all profiles", "anchors": ["abcvoting/abcrules.py:compute_thiele_method", "abcvoting/abcrules.py:compute_av", "abcvoting/abcrules.py:compute_sav", "abcvoting/abcrules.py:compute_lexcc", "abcvoting/abcrules.py:compute_lexminimaxav", "abcvoting/abcrules.py:compute_minimaxav"]}
{"id": "C68", "title": "The lexicographic rules only break ties", "statement": "Every committee returned by compute_lexcc is returned by compute_cc, and every committee returned by compute_lexminimaxav is returned by compute_minimaxav, whichever algorithms are used.", "quantifier": "all profiles, committee sizes, pairs of algorithms and correct solvers", "why_tests_cant": "relates two rules and independently implemented algorithms on all profiles", "anchors": ["abcvoting/abcrules.py:compute_lexcc", "abcvoting/abcrules.py:compute_cc", "abcvoting/abcrules.py:compute_lexminimaxav", "abcvoting/abcrules.py:compute_minimaxav"]}
{"id": "C69", "title": "Which rules elect Pareto-efficient committees", "statement": "No committee returned by AV, SAV, the Thiele methods other than CC, lexicographic CC and lexminimax AV is Pareto-dominated by a committee of the same size; for CC and minimax AV every committee dominating a returned one is returned, too. (Refuted for sequential PAV.)", "quantifier": "all profiles, committee sizes, algorithms and correct solvers", "why_tests_cant": "all profiles and all competing committees", "anchors": ["abcvoting/abcrules.py:compute_thiele_method", "abcvoting/abcrules.py:compute_av", "abcvoting/abcrules.py:compute_sav", "abcvoting/abcrules.py:compute_lexcc", "abcvoting/abcrules.py:compute_lexminimaxav", "abcvoting/abcrules.py:compute_minimaxav"]}
{"id": "C70", "title": "With a single seat most rules coincide with approval voting", "statement": "For committeesize=1 the optimal and sequential Thiele methods, lexicographic CC, Monroe, sequential Phragmén, Equal Shares (with Phragmén or AV completion), Phragmén-Eneström and the consensus rule return exactly the list compute_av returns, namely the candidates of maximal approval weight. (Refuted for SAV, minimax AV and E Pluribus Hugo.)", "quantifier": "all profiles, algorithms and correct solvers", "why_tests_cant": "all profiles and all ties", "anchors": ["abcvoting/abcrules.py:compute"]}
{"id": "C71", "title": "With as many seats as candidates every rule elects all candidates", "statement": "If committeesize equals the number of candidates, every rule and algorithm, resolute or not, returns exactly one committee: the set of all candidates.", "quantifier": "all profiles, rules, algorithms, correct solvers and values of resolute and max_num_of_committees", "why_tests_cant": "boundary case for all profiles", "anchors": ["abcvoting/abcrules.py:compute"]}
{"id": "C72", "title": "The printed profile identifies the profile", "statement": "str(profile) consists of a header and one numbered line per voter with the weight (unless all weights are 1) and the alphabetically sorted names of the approved candidates. Two profiles with the same (distinct, comma-free) candidate names have the same text only if they have the same number of candidates and the same ballots with equal weights in the same order; hence write_abcvoting_instance_to_yaml_file, which compares texts, never accepts a compute instance made for a different profile with the same names. str_compact lists every ballot once, with the sum of the weights of its voters. (Refuted without the condition on the names: with two names exchanged, a different profile is accepted.)", "quantifier": "all profiles, all name lists, all printers of numbers", "why_tests_cant": "injectivity is a statement about all pairs of profiles", "anchors": ["abcvoting/preferences.py:Profile.__str__", "abcvoting/preferences.py:Profile.str_compact", "abcvoting/misc.py:str_set_of_candidates", "abcvoting/fileio.py:write_abcvoting_instance_to_yaml_file"]}
{"id": "C73", "title": "What an .abc.yaml file means", "statement": "read_abcvoting_yaml_file returns exactly what the file says: one voter per list of candidates with the given weight (or 1), as many candidates as num_cand says or as needed for the largest candidate mentioned, the committee size rounded to an integer, and one compute instance per entry with the file's profile and committee size and the committees listed under result. It accepts every such file whose keys are known, and every file means at most one thing.", "quantifier": "all YAML data", "why_tests_cant": "all files", "anchors": ["abcvoting/fileio.py:read_abcvoting_yaml_file"]}
{"id": "C74", "title": "The explanations of the checks are true", "statement": "Every check of properties.py prints its verdict (INFO) and, exactly if the committee fails, an explanation (DETAILS) that is correct evidence: the printed group of voters is large enough for the quota, jointly approves the printed candidates (weakly, for FJR; prefers them, for the core) and is not represented as the axiom demands; the printed share is that of the group; the committee printed by the Pareto check dominates. Printing does not change the result, nothing is printed at the default verbosity, and full_analysis silences these messages. (Refuted: the brute-force EJR/PJR checks print a larger group for which the sentence may be false; with Fraction weights and Python < 3.12 a failing check raises TypeError after printing its verdict.)", "quantifier": "all profiles, committees, quotas, algorithms and exact solvers", "why_tests_cant": "all profiles and all optimal solutions a solver may return", "anchors": ["abcvoting/properties.py:check_JR", "abcvoting/properties.py:check_EJR", "abcvoting/properties.py:check_PJR", "abcvoting/properties.py:check_EJR_plus", "abcvoting/properties.py:check_FJR", "abcvoting/properties.py:check_core", "abcvoting/properties.py:check_pareto_optimality", "abcvoting/properties.py:full_analysis"]}
{"id": "C75", "title": "The printed prices are prices, with the smallest budget", "statement": "If check_priceability or check_stable_priceability succeeds on a profile with unit weights (and enough approved candidates), the budget and the table of payments it prints form a (stable) price system for the committee, and no (stable) price system has a smaller budget; if it fails there is none. With other weights, or if fewer candidates are approved than there are seats, only the verdict is printed.", "quantifier": "all profiles, committees and exact solvers", "why_tests_cant": "all profiles and all optimal solutions", "anchors": ["abcvoting/properties.py:check_priceability", "abcvoting/properties.py:check_stable_priceability", "abcvoting/properties.py:_check_priceability_gurobi"]}
{"id": "C76", "title": "What a rule prints at which verbosity", "statement": "Computing a rule prints nothing at the default verbosity WARNING; at INFO it prints the name of the rule in a box, the mode (resolute / irresolute) where this matters, and the winning committees with the candidates' names, and nothing else; at DETAILS every message is printed. Formatting the report never raises.", "quantifier": "all rules, algorithms, valid calls, profiles, verbosities, exact solvers and line-wrapping functions", "why_tests_cant": "all profiles and calls", "anchors": ["abcvoting/abcrules.py:compute_thiele_method", "abcvoting/abcrules.py:compute_separable_rule", "abcvoting/abcrules.py:compute_seq_thiele_method", "abcvoting/abcrules.py:compute_revseq_thiele_method", "abcvoting/abcrules.py:compute_seqphragmen", "abcvoting/abcrules.py:compute_equal_shares", "abcvoting/abcrules.py:compute_maximin_support", "abcvoting/abcrules.py:compute_greedy_monroe", "abcvoting/misc.py:str_committees_with_header", "abcvoting/misc.py:header", "abcvoting/output.py:Output"]}
{"id": "C77", "title": "The account of a computation is true", "statement": "What a rule prints at verbosity DETAILS is true: the optimal score is the score of the winning committees; the candidates said to be in all (some) winning committees are; a sequential rule's story is the run that elects the returned committee, with correct marginal scores, loads, budgets, prices and maximin support values, ties being reported exactly when at least two candidates were tied, and the lowest-numbered of them taken; the loads listed for the winning committees lead to these committees; the districts of Greedy Monroe form a valid assignment with the printed score, which is called non-optimal exactly if it is; the virtual committee size of the increment completion is the smallest that works.", "quantifier": "all rules, algorithms, valid calls and profiles", "why_tests_cant": "all profiles", "anchors": ["abcvoting/abcrules.py:compute_thiele_method", "abcvoting/abcrules.py:compute_separable_rule", "abcvoting/abcrules.py:compute_seq_thiele_method", "abcvoting/abcrules.py:compute_revseq_thiele_method", "abcvoting/abcrules.py:compute_seqphragmen", "abcvoting/abcrules.py:compute_equal_shares", "abcvoting/abcrules.py:compute_maximin_support", "abcvoting/abcrules.py:compute_greedy_monroe", "abcvoting/misc.py:str_committees_with_header", "abcvoting/misc.py:header"]}
{"id": "C78", "title": "The sentences of the account mean what they say", "statement": "The maximum load announced by sequential Phragmén in each round is the largest load of a voter, loads never decrease, and the weighted loads add up to the number of elected candidates. (Refuted: for a candidate nobody approves the announced load is committee size + 1; reverse sequential rules do not mention ties of two candidates and call every score PAV-score; the 'budget spent' of Equal Shares' second phase is minus the unspent budget; the distances of several lexminimaxav committees are run together.)", "quantifier": "all profiles and all rounds", "why_tests_cant": "all profiles", "anchors": ["abcvoting/abcrules.py:compute_thiele_method", "abcvoting/abcrules.py:compute_separable_rule", "abcvoting/abcrules.py:compute_seq_thiele_method", "abcvoting/abcrules.py:compute_revseq_thiele_method", "abcvoting/abcrules.py:compute_seqphragmen", "abcvoting/abcrules.py:compute_equal_shares", "abcvoting/abcrules.py:compute_maximin_support", "abcvoting/abcrules.py:compute_greedy_monroe", "abcvoting/misc.py:str_committees_with_header", "abcvoting/misc.py:header"]}
{"id": "C79", "title": "The default (floating-point) algorithm yields valid committees", "statement": "With the default algorithm float-fractions, sequential Phragmén, Equal Shares (all completions), Phragmén-Eneström, the consensus rule and E Pluribus Hugo terminate despite rounding with pairwise different committees of the required size; the resolute committee is one of the irresolute ones, and max_num_of_committees=n yields min(n, number of committees) of them; Equal Shares with increment completion returns a committee for weights of at least 1 and at most 50 seats.", "quantifier": "all profiles, committee sizes and arguments, and every arithmetic that rounds like IEEE 754 binary64", "why_tests_cant": "rounding errors depend on the profile; all profiles, including those whose budgets are exhausted up to rounding", "anchors": ["abcvoting/abcrules.py:_seqphragmen_resolute", "abcvoting/abcrules.py:_seqphragmen_irresolute", "abcvoting/abcrules.py:_equal_shares_algorithm", "abcvoting/abcrules.py:_phragmen_enestroem_algorithm", "abcvoting/abcrules.py:_consensus_rule_algorithm", "abcvoting/abcrules.py:_eph_algorithm", "abcvoting/misc.py:isclose"]}
{"id": "C80", "title": "The default sequential Phragmén is accurate", "statement": "In elections with weights of at least 1 and moderately many voters and seats, sequential Phragmén with float-fractions finds every exact winner, and every committee it returns arises from choices within 2*10^-12 of the optimum; without near ties, in particular with integer weights of bounded total, it returns exactly what standard-fractions returns, for all arguments. (Refuted for large electorates: candidates with 1000000 and 1000001 supporters are treated as tied.)", "quantifier": "all profiles, committee sizes and arguments, and every arithmetic that rounds like IEEE 754 binary64", "why_tests_cant": "accumulated rounding errors over all profiles and rounds", "anchors": ["abcvoting/abcrules.py:_seqphragmen_resolute", "abcvoting/abcrules.py:_seqphragmen_irresolute", "abcvoting/misc.py:isclose"]}
{"id": "C81", "title": "Texts are laid out line by line", "statement": "The formatted list of committees has a header with the correct number of committees (singular and plural, 'winning' if asked) and one indented line per committee, and different lists have different texts; long messages are wrapped line by line, keeping their line breaks; full_analysis prints for each property its description padded to 50 characters and the verdict.", "quantifier": "all lists of committees, messages and line-wrapping functions", "why_tests_cant": "all lists of committees and all texts", "anchors": ["abcvoting/misc.py:str_committees_with_header", "abcvoting/misc.py:str_sets_of_candidates", "abcvoting/output.py:Output._print", "abcvoting/properties.py:full_analysis"]}
{"id": "C82", "title": "The default algorithms of E Pluribus Hugo, Eneström's method and the consensus rule are exact without near ties", "statement": "In elections with moderately many voters and seats and without near ties (values that differ, but by less than 2*10^-12 relatively or absolutely), E Pluribus Hugo, Phragmén's method as described by Eneström and the consensus rule return with float-fractions (or fastest) exactly what they return with standard-fractions, for all arguments; integer weights of bounded total have no near ties.", "quantifier": "all profiles, committee sizes and arguments, and every arithmetic that rounds like IEEE 754 binary64", "why_tests_cant": "accumulated rounding errors over all profiles, rounds and tie-breaking branches", "anchors": ["abcvoting/abcrules.py:_eph_algorithm", "abcvoting/abcrules.py:_phragmen_enestroem_algorithm", "abcvoting/abcrules.py:_consensus_rule_algorithm", "abcvoting/misc.py:isclose"]}
{"id": "C83", "title": "The default algorithm of the Method of Equal Shares is exact for integer weights", "statement": "In elections with integer weights of bounded total and moderately many voters and seats, the Method of Equal Shares - without completion and with each of the three completions - returns with float-fractions (or fastest) exactly what it returns with standard-fractions, for resolute and irresolute calls and all limits.", "quantifier": "all profiles with integer weights, committee sizes and arguments within the stated sizes, and every arithmetic that rounds like IEEE 754 binary64", "why_tests_cant": "accumulated rounding errors over all profiles, rounds, prices and tie-breaking branches", "anchors": ["abcvoting/abcrules.py:_equal_shares_algorithm", "abcvoting/abcrules.py:compute_equal_shares", "abcvoting/misc.py:isclose"]}
{"id": "C84", "title": "Reading a directory of Preflib files", "statement": "get_file_names returns, in sorted order and independently of the order in which the operating system lists them, exactly the files of the directory with one of the given extensions, and raises FileNotFoundError exactly if the directory has no files at all; read_preflib_files_from_dir maps exactly the Preflib files of the directory to the profile read_preflib_file returns for each, and fails with the exception of the first unreadable one.", "quantifier": "all directory contents, file names, extensions and file contents", "why_tests_cant": "directory listings come in arbitrary order with arbitrary names", "anchors": ["abcvoting/fileio.py:get_file_names", "abcvoting/fileio.py:read_preflib_files_from_dir"]}
{"id": "C85", "title": "On party-list profiles the proportional rules are D'Hondt and Sainte-Lagu\u00eb", "statement": "On party-list profiles (those for which is_party_list is True) pav, seqpav, revseqpav, seqphragmen and equal-shares return exactly the committees of the D'Hondt method, and slav, seqslav and revseqslav exactly those of Sainte-Lagu\u00eb; in general every Thiele method with non-increasing weights, its sequential and its reverse sequential version return the committees of the corresponding highest averages method. Hence rules with the same method return the same list, and every party gets at least its vote share of the seats rounded down (or has no more candidates).", "quantifier": "all party-list profiles (with weights), committee sizes, algorithms, resolute or not, all limits", "why_tests_cant": "equality of sets of winning committees of different rules over all profiles and all ways to break ties", "anchors": ["abcvoting/abcrules.py:compute_pav", "abcvoting/abcrules.py:compute_seqpav", "abcvoting/abcrules.py:compute_revseqpav", "abcvoting/abcrules.py:compute_seqphragmen", "abcvoting/abcrules.py:compute_equal_shares", "abcvoting/preferences.py:Profile.is_party_list"]}
{"id": "C86", "title": "On party-list profiles Enestr\u00f6m's method is the largest remainder method and Equal Shares gives whole quotas", "statement": "On party-list profiles phragmen-enestroem returns exactly the committees of the largest remainder method (each seat uses up one quota, the last seats go to the largest unused votes), and equal-shares-without-completion exactly the committees in which each party has its vote share of the seats, rounded down, or all its candidates.", "quantifier": "all party-list profiles (with weights), committee sizes, resolute or not, all limits, exact fractions", "why_tests_cant": "equality of sets of winning committees over all profiles and all ways to break ties", "anchors": ["abcvoting/abcrules.py:compute_phragmen_enestroem", "abcvoting/abcrules.py:compute_equal_shares", "abcvoting/preferences.py:Profile.is_party_list"]}
{"id": "C87", "title": "Voters without a preference do not influence most rules", "statement": "Adding voters who approve no candidate, or all candidates, does not change the list of winning committees of av, sav (fraction weights), all Thiele methods, their sequential and reverse-sequential variants, lexcc, lexminimaxav, trivial and eph. Adding voters who approve nobody does not change seqphragmen, minimaxphragmen and maximin-support either. For minimaxav the winners stay winners. The rules that count voters (phragmen-enestroem, consensus-rule, equal-shares, monroe) do change.", "quantifier": "all profiles, all sets of added voters with any positive weights, committee sizes, and the algorithms of the listed rules", "why_tests_cant": "equality of outcomes for all profiles and all additions", "anchors": ["abcvoting/abcrules.py:compute", "abcvoting/abcrules.py:compute_eph", "abcvoting/abcrules.py:compute_seqphragmen", "abcvoting/abcrules.py:compute_maximin_support"]}
{"id": "C88", "title": "Candidates approved by nobody do not matter", "statement": "Let q be the election p with additional candidates whom no voter approves. For every rule and algorithm of the library that is specified for p (av, sav with fraction weights, Thiele methods, sequential and reverse-sequential variants, lexcc, seqphragmen, minimaxphragmen, leximaxphragmen, maximin-support, monroe, minimaxav, lexminimaxav, equal shares with and without completion, phragmen-enestroem, consensus-rule, trivial, eph), the list of winning committees of p is exactly the list for q with the committees containing an additional candidate struck out. With resolute=True, av, sav, the brute-force Thiele methods, trivial and greedy-monroe return the identical committee. (Refuted for resolute branch-and-bound: with more than ten candidates it may switch to a committee with an additional candidate.)", "quantifier": "all profiles, numbers of additional candidates, committee sizes, positive weights, algorithms and correct libraries", "why_tests_cant": "equality of outcome lists for all profiles and all extensions", "anchors": ["abcvoting/abcrules.py:compute", "abcvoting/preferences.py:Profile.__init__", "abcvoting/abcrules.py:compute_eph", "abcvoting/abcrules.py:compute_monroe"]}
{"id": "C89", "title": "Leximax Phragmén is proportional (PJR+), minimax Phragmén is not", "statement": "Every committee returned by compute_leximaxphragmen (gurobi, resolute or not, with or without lexicographic_tiebreaking) satisfies PJR+ (every group of l seats' weight that agrees on a candidate outside the committee approves at least l members), hence PJR and JR: justifiedrepresentation is True, and proportional-justified-representation is True for unit weights. Required: weights >= 1 and a total weight small compared with the tolerances 1e-8 per voter and 1e-7 (up to 9995 unit voters). compute_minimaxphragmen can return a committee that violates even JR.", "quantifier": "all profiles within the tolerance condition, committee sizes, tie-breaking modes, exact solvers; a concrete profile for the refutation", "why_tests_cant": "all profiles, all groups of voters", "anchors": ["abcvoting/abcrules.py:compute_leximaxphragmen", "abcvoting/abcrules_gurobi.py:_gurobi_leximaxphragmen", "abcvoting/abcrules.py:compute_minimaxphragmen", "abcvoting/properties.py:check"]}
{"id": "C90", "title": "Exactly which Thiele methods satisfy JR; only PAV satisfies PJR, EJR and EJR+", "statement": "For non-increasing weights f (the j-th approved committee member is worth f(j) to a voter): all committees with the largest Thiele score satisfy JR for every profile and size if and only if f(j) <= f(1)/j, and they satisfy PJR (likewise EJR, EJR+) if and only if f(j) = f(1)/j. Consequently every committee returned by compute for PAV, SLAV, CC and geom with base at least 2, by each exact algorithm, makes the justifiedrepresentation check True; AV and geom with base in [1,2) have elections (even party-list ones) in which every returned committee fails JR, and SLAV, CC and geom with base above 2 ones in which every returned committee fails PJR and EJR+. Sequential PAV, sequential 2-geometric, reverse sequential PAV, minimax AV, lexminimax AV, SAV and E Pluribus Hugo can return committees violating JR.", "quantifier": "all weight functions, profiles, committee sizes, groups of voters; concrete elections for the refutations", "why_tests_cant": "an equivalence over all weight functions and all profiles", "anchors": ["abcvoting/abcrules.py:compute_thiele_method", "abcvoting/abcrules.py:compute_seq_thiele_method", "abcvoting/abcrules.py:compute_minimaxav", "abcvoting/abcrules.py:compute_separable_rule", "abcvoting/scores.py:get_marginal_scorefct", "abcvoting/properties.py:check"]}
{"id": "C91", "title": "How much of the optimum the sequential and the optimising Thiele rules reach", "statement": "Every committee returned for a sequential Thiele rule with non-increasing weights (seqpav, seqslav, seqcc, seqgeom with base at least 1) has a thiele_score of at least 1 - (1 - 1/k)^k, hence at least 63%, of the score of every committee of the same size (the share is attained for k = 2). Every committee returned by PAV, SLAV, CC or geom with base at least 2 (exact algorithms), and in general by a Thiele method with f(j) <= f(1)/j, gives an approved member to at least k/(2k-1), hence more than half, of the weight of voters that any committee of the same size reaches. AV and reverse sequential CC lack these guarantees.", "quantifier": "all weight functions, profiles, committee sizes, tie-breaking modes and competing committees", "why_tests_cant": "compares the result with every other committee for every profile", "anchors": ["abcvoting/abcrules.py:compute_seq_thiele_method", "abcvoting/abcrules.py:_seq_thiele_resolute", "abcvoting/abcrules.py:_seq_thiele_irresolute", "abcvoting/abcrules.py:compute_thiele_method", "abcvoting/scores.py:thiele_score"]}
{"id": "C92", "title": "How satisfied groups that deserve l seats are on average", "statement": "Let a group of voters deserve l seats (its weight is at least l times the default quota) and agree on l candidates, or agree on one candidate outside the committee. If the committee passes properties.check_EJR_plus, or is returned by Equal Shares (exact fractions; completion by AV or sequential Phragmén), the members of the group approve on (weighted) average at least (l-1)/2 members of the committee. If it is returned by PAV (any exact algorithm), they approve on average more than l-1. EJR+ does not guarantee the bound of PAV.", "quantifier": "all profiles with positive weights, committees, groups and numbers of seats, tie-breaking modes", "why_tests_cant": "ranges over all groups of all profiles", "anchors": ["abcvoting/properties.py:check_EJR_plus", "abcvoting/abcrules.py:compute_pav", "abcvoting/abcrules.py:compute_equal_shares", "abcvoting/abcrules.py:compute_thiele_method"]}
{"id": "C93", "title": "PAV is close to the core", "statement": "Let a committee be returned by PAV (any exact algorithm) and let a group of voters deserve |T| seats (its weight is at least |T| times the default quota) for a set T of candidates. Then some voter of the group approves at most twice as many members of T as of the committee, and if no member of T is in the committee, at most as many. With the factor 1 this is the core, which properties.check_core decides; PAV itself can leave the core, AV misses every factor and CC the factor 2.", "quantifier": "all profiles with positive weights, committee sizes, tie-breaking modes, groups and sets T", "why_tests_cant": "ranges over all groups and all sets of candidates of all profiles", "anchors": ["abcvoting/abcrules.py:compute_pav", "abcvoting/abcrules.py:compute_thiele_method", "abcvoting/properties.py:check_core"]}
{"id": "C94", "title": "Approval voting is strategyproof, the other rules are not", "statement": "If one voter submits another ballot (with the same weight), the committee that AV returns with resolute=True contains at most as many candidates that the voter really approves; with resolute=False every committee of the new list is matched or beaten, from the voter's point of view, by a committee of the honest list, and every committee of the honest list is matched or undercut by one of the new list. PAV, SLAV, CC, lexcc, minimax AV, lexminimax AV, Monroe, Greedy Monroe, sequential PAV, SLAV and CC, reverse sequential PAV, sequential Phragmén, Equal Shares, Phragmén-Eneström, the consensus rule, E Pluribus Hugo and SAV lack this property: withholding an approval can pay.", "quantifier": "all profiles, voters, ballots submitted instead and committee sizes", "why_tests_cant": "compares the results for all pairs of profiles that differ in one ballot", "anchors": ["abcvoting/abcrules.py:compute_av", "abcvoting/abcrules.py:compute_separable_rule", "abcvoting/abcrules.py:compute_pav", "abcvoting/abcrules.py:compute_seqphragmen", "abcvoting/abcrules.py:compute_equal_shares"]}
