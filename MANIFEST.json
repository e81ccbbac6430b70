{
 "claims": [
  {
   "property": "C01",
   "status": "proved",
   "theorems": [
    "C01_thiele_score"
   ],
   "note": ""
  },
  {
   "property": "C02",
   "status": "proved",
   "theorems": [
    "C02_thiele_bruteforce",
    "C02_pav_bruteforce"
   ],
   "note": ""
  },
  {
   "property": "C03",
   "status": "proved",
   "theorems": [
    "C03_branchandbound",
    "C03_same_as_bruteforce",
    "C03_geom_below_one_refuted",
    "C03_nonincreasing"
   ],
   "note": "Equality with brute force for non-increasing marginals; refuted for geom with base < 1."
  },
  {
   "property": "C04",
   "status": "proved",
   "theorems": [
    "C04_av",
    "C04_sav_exact"
   ],
   "note": ""
  },
  {
   "property": "C05",
   "status": "proved",
   "theorems": [
    "C05_sav_int_weights_refuted"
   ],
   "note": "Existence statement, computed with Coq's SpecFloat binary64."
  },
  {
   "property": "C06",
   "status": "proved",
   "theorems": [
    "C06_seq_thiele",
    "C06_seq_thiele_resolute"
   ],
   "note": ""
  },
  {
   "property": "C07",
   "status": "proved",
   "theorems": [
    "C07_revseq",
    "C07_revseq_any_iteration_order",
    "C07_revseq_resolute"
   ],
   "note": "Full answer if set iteration order depends on the elements only; weaker statement for every order."
  },
  {
   "property": "C08",
   "status": "proved",
   "theorems": [
    "C08_lexcc"
   ],
   "note": ""
  },
  {
   "property": "C09",
   "status": "proved",
   "theorems": [
    "C09_minimaxav"
   ],
   "note": ""
  },
  {
   "property": "C10",
   "status": "proved",
   "theorems": [
    "C10_lexminimaxav",
    "C10_lexminimaxav_rejects_weights"
   ],
   "note": ""
  },
  {
   "property": "C11",
   "status": "proved",
   "theorems": [
    "C11_score",
    "C11_score_unique",
    "C11_winners",
    "C11_winner_exists",
    "C11_weights_rejected"
   ],
   "note": "For every networkx that computes maximum matchings and min-cost flows; MIP/CP back ends are external."
  },
  {
   "property": "C12",
   "status": "proved",
   "theorems": [
    "C12_greedy",
    "C12_unique",
    "C12_assignment",
    "C12_assignment_is_monroe"
   ],
   "note": ""
  },
  {
   "property": "C13",
   "status": "proved",
   "theorems": [
    "C13_seqphragmen",
    "C13_integer_weights",
    "C13_valid_committees",
    "C13_small_weights_refuted",
    "C13_small_weights_crash_refuted"
   ],
   "note": ""
  },
  {
   "property": "C14",
   "status": "proved",
   "theorems": [
    "C14_equal_shares",
    "C14_price_system"
   ],
   "note": ""
  },
  {
   "property": "C15",
   "status": "proved",
   "theorems": [
    "C15_seqphragmen_completion",
    "C15_av_completion",
    "C15_full_committees",
    "C15_increment_completion",
    "C15_integer_weights",
    "C15_increment_small_weights_refuted",
    "C15_rule_x",
    "C15_unknown_completion"
   ],
   "note": ""
  },
  {
   "property": "C16",
   "status": "proved",
   "theorems": [
    "C16_enestroem",
    "C16_valid_committees"
   ],
   "note": ""
  },
  {
   "property": "C17",
   "status": "proved",
   "theorems": [
    "C17_consensus",
    "C17_valid_committees",
    "C17_budget_conserved"
   ],
   "note": ""
  },
  {
   "property": "C18",
   "status": "proved",
   "theorems": [
    "C18_trivial",
    "C18_trivial_resolute"
   ],
   "note": ""
  },
  {
   "property": "C19",
   "status": "proved",
   "theorems": [
    "C19_rsd",
    "C19_every_outcome",
    "C19_first_dictator",
    "C19_greedy_dictator"
   ],
   "note": ""
  },
  {
   "property": "C20",
   "status": "proved",
   "theorems": [
    "C20_eph",
    "C20_single_candidate_refuted"
   ],
   "note": ""
  },
  {
   "property": "C21",
   "status": "proved",
   "theorems": [
    "C21_every_rule",
    "C21_without_completion",
    "C21_resolute_rules",
    "C21_few_approved"
   ],
   "note": ""
  },
  {
   "property": "C22",
   "status": "proved",
   "theorems": [
    "C22_restricts",
    "C22_resolute_only"
   ],
   "note": ""
  },
  {
   "property": "C23",
   "status": "proved",
   "theorems": [
    "C23_verify_compute_parameters",
    "C23_errors_propagate"
   ],
   "note": ""
  },
  {
   "property": "C24",
   "status": "proved",
   "theorems": [
    "C24_sorted_committees",
    "C24_sorted_committees_deterministic",
    "C24_sorted_committees_rejects",
    "C24_printed_form_injective"
   ],
   "note": ""
  },
  {
   "property": "C25",
   "status": "proved",
   "theorems": [
    "C25_compare",
    "C25_compare_equivalence",
    "C25_verify_expected"
   ],
   "note": ""
  },
  {
   "property": "C26",
   "status": "proved",
   "theorems": [
    "C26_profile_invariant",
    "C26_profile_new",
    "C26_new_profile",
    "C26_queries",
    "C26_add_voter_accepts",
    "C26_exceptions",
    "C26_effects"
   ],
   "note": ""
  },
  {
   "property": "C27",
   "status": "proved",
   "theorems": [
    "C27_convert_to_weighted",
    "C27_convert_to_unit_weights",
    "C27_convert_to_unit_weights_raises",
    "C27_int_weights_reachable"
   ],
   "note": ""
  },
  {
   "property": "C28",
   "status": "proved",
   "theorems": [
    "C28_integer_weight_is_copies",
    "C28_conversions_keep_results",
    "C28_integer_weight_is_copies_sequential",
    "C28_conversions_keep_results_sequential"
   ],
   "note": ""
  },
  {
   "property": "C29",
   "status": "proved",
   "theorems": [
    "C29_anonymity_every_rule",
    "C29_anonymity",
    "C29_anonymity_sequential",
    "C29_greedy_monroe_refuted"
   ],
   "note": ""
  },
  {
   "property": "C30",
   "status": "proved",
   "theorems": [
    "C30_dominate",
    "C30_dominate_strict_order",
    "C30_dominate_rejects"
   ],
   "note": ""
  },
  {
   "property": "C31",
   "status": "proved",
   "theorems": [
    "C31_hamming",
    "C31_powerset",
    "C31_binom",
    "C31_binom_negative"
   ],
   "note": ""
  },
  {
   "property": "C32",
   "status": "proved",
   "theorems": [
    "C32_pareto_exact",
    "C32_invalid_committee"
   ],
   "note": ""
  },
  {
   "property": "C33",
   "status": "proved",
   "theorems": [
    "C33_JR_exact",
    "C33_default_quota",
    "C33_empty_committee"
   ],
   "note": ""
  },
  {
   "property": "C34",
   "status": "proved",
   "theorems": [
    "C34_EJR_exact",
    "C34_PJR_exact",
    "C34_weighted_refuted"
   ],
   "note": ""
  },
  {
   "property": "C35",
   "status": "proved",
   "theorems": [
    "C35_EJR_plus_exact",
    "C35_EJR_plus_quota",
    "C35_large_quota_refuted"
   ],
   "note": ""
  },
  {
   "property": "C36",
   "status": "proved",
   "theorems": [
    "C36_FJR_exact",
    "C36_core_exact"
   ],
   "note": ""
  },
  {
   "property": "C37",
   "status": "proved",
   "theorems": [
    "C37_implications",
    "C37_axioms"
   ],
   "note": ""
  },
  {
   "property": "C38",
   "status": "proved",
   "theorems": [
    "C38_pav",
    "C38_pav_axiom"
   ],
   "note": ""
  },
  {
   "property": "C39",
   "status": "proved",
   "theorems": [
    "C39_thiele_pareto",
    "C39_branchandbound_pareto",
    "C39_av_pareto",
    "C39_lexcc_pareto",
    "C39_cc_refuted"
   ],
   "note": ""
  },
  {
   "property": "C40",
   "status": "proved",
   "theorems": [
    "C40_cc_JR",
    "C40_seqcc_JR",
    "C40_lexcc_JR",
    "C40_greedy_monroe_JR"
   ],
   "note": ""
  },
  {
   "property": "C41",
   "status": "proved",
   "theorems": [
    "C41_equal_shares",
    "C41_without_completion",
    "C41_axiom",
    "C41_increment_refuted"
   ],
   "note": ""
  },
  {
   "property": "C42",
   "status": "proved",
   "theorems": [
    "C42_seqphragmen",
    "C42_PJR_plus_stronger"
   ],
   "note": ""
  },
  {
   "property": "C43",
   "status": "proved",
   "theorems": [
    "C43_loop",
    "C43_exact_solvers_exist",
    "C43_thiele_agrees",
    "C43_others_agree"
   ],
   "note": "For every exact solver (any choice among optimal solutions; satisfiable: RefSolver.v) the loop returns exactly the optimal committees; lexcc needs weights that are multiples of some u > 1e-8."
  },
  {
   "property": "C44",
   "status": "proved",
   "theorems": [
    "C44_thiele_encoding",
    "C44_cc_encoding",
    "C44_minimaxav_encoding",
    "C44_monroe_encodings",
    "C44_thiele",
    "C44_which_thiele",
    "C44_geom_rejected",
    "C44_cc",
    "C44_cc_fractions_rejected",
    "C44_lexcc",
    "C44_minimaxav",
    "C44_lexminimaxav",
    "C44_monroe"
   ],
   "note": "All encodings, plus the public functions with each solver algorithm. geom with base <= 1 is rejected by the MIP algorithms (C44_geom_rejected)."
  },
  {
   "property": "C45",
   "status": "proved",
   "theorems": [
    "C45_roundtrip",
    "C45_fractional_refuted"
   ],
   "note": ""
  },
  {
   "property": "C46",
   "status": "proved",
   "theorems": [
    "C46_roundtrip",
    "C46_write_succeeds",
    "C46_read_valid",
    "C46_rewrite",
    "C46_rewrite_refuted",
    "C46_names_refuted"
   ],
   "note": ""
  },
  {
   "property": "C47",
   "status": "proved",
   "theorems": [
    "C47_printed",
    "C47_monotone",
    "C47_levels",
    "C47_logged",
    "C47_log_text_refuted"
   ],
   "note": ""
  },
  {
   "property": "C48",
   "status": "proved",
   "theorems": [
    "C48_copy_independent",
    "C48_copy_keeps_names_refuted",
    "C48_store_refines"
   ],
   "note": ""
  },
  {
   "property": "C49",
   "status": "proved",
   "theorems": [
    "C49_is_party_list"
   ],
   "note": ""
  },
  {
   "property": "C50",
   "status": "proved",
   "theorems": [
    "C50_fastest",
    "C50_fastest_exists",
    "C50_fastest_accepted"
   ],
   "note": ""
  },
  {
   "property": "C51",
   "status": "proved",
   "theorems": [
    "C51_exact",
    "C51_priceable_PJR",
    "C51_stable_core",
    "C51_axioms",
    "C51_only_gurobi"
   ],
   "note": ""
  },
  {
   "property": "C52",
   "status": "proved",
   "theorems": [
    "C52_monroe",
    "C52_greedy_monroe",
    "C52_indivisible_refuted"
   ],
   "note": "PJR+ if the committee size divides the number of voters; refuted otherwise."
  },
  {
   "property": "C53",
   "status": "proved",
   "theorems": [
    "C53_minimax",
    "C53_leximax",
    "C53_lexicographic_tiebreaking",
    "C53_few_approved",
    "C53_few_approved_resolute",
    "C53_max_num_refuted",
    "C53_light_voters_refuted",
    "C53_exact_optimum_refuted"
   ],
   "note": "Proved for weights >= 1; refuted: max_num_of_committees is ignored if fewer candidates are approved than seats; weights < 1 give RuntimeError; the 1e-7 tolerance admits non-optimal committees for large weights."
  },
  {
   "property": "C54",
   "status": "proved",
   "theorems": [
    "C54_maximin_support"
   ],
   "note": ""
  },
  {
   "property": "C55",
   "status": "proved",
   "theorems": [
    "C55_computes_the_rule",
    "C55_resolute_rules",
    "C55_defaults",
    "C55_expected_result",
    "C55_unknown_rule",
    "C55_unexpected_keyword",
    "C55_completion",
    "C55_unknown_completion",
    "C55_unknown_id"
   ],
   "note": ""
  },
  {
   "property": "C56",
   "status": "proved",
   "theorems": [
    "C56_pareto",
    "C56_exact",
    "C56_agreement",
    "C56_weighted_refuted"
   ],
   "note": ""
  },
  {
   "property": "C57",
   "status": "proved",
   "theorems": [
    "C57_seqphragmen",
    "C57_equal_shares"
   ],
   "note": ""
  },
  {
   "property": "C58",
   "status": "proved",
   "theorems": [
    "C58_top_ranks",
    "C58_setsize",
    "C58_ordinal",
    "C58_rejected",
    "C58_zero_refuted"
   ],
   "note": ""
  },
  {
   "property": "C59",
   "status": "proved",
   "theorems": [
    "C59_check",
    "C59_check_rejects",
    "C59_full_analysis",
    "C59_exception_refuted"
   ],
   "note": ""
  },
  {
   "property": "C60",
   "status": "proved",
   "theorems": [
    "C60_dimension",
    "C60_valid",
    "C60_sizes",
    "C60_exact_sizes",
    "C60_float_sizes_refuted",
    "C60_accepts",
    "C60_rejects",
    "C60_point_dimension",
    "C60_euclidean_points"
   ],
   "note": ""
  },
  {
   "property": "C61",
   "status": "proved",
   "theorems": [
    "C61_neutral_and_anonymous"
   ],
   "note": ""
  },
  {
   "property": "C62",
   "status": "proved",
   "theorems": [
    "C62_homogeneous",
    "C62_maximin_support_refuted"
   ],
   "note": ""
  },
  {
   "property": "C63",
   "status": "proved",
   "theorems": [
    "C63_committee_monotone",
    "C63_resolute",
    "C63_optimal_pav_refuted"
   ],
   "note": ""
  },
  {
   "property": "C64",
   "status": "proved",
   "theorems": [
    "C64_first_by_number",
    "C64_first_printed",
    "C64_algorithms_agree_refuted"
   ],
   "note": ""
  },
  {
   "property": "C65",
   "status": "proved",
   "theorems": [
    "C65_enestroem",
    "C65_maximin_support",
    "C65_maximin_exact",
    "C65_consensus_refuted"
   ],
   "note": "PJR+ for Phragm\u00e9n-Enestr\u00f6m and maximin support; refuted for the consensus rule."
  },
  {
   "property": "C66",
   "status": "proved",
   "theorems": [
    "C66_more_approvals",
    "C66_eph_refuted",
    "C66_revseqpav_refuted"
   ],
   "note": "Refuted for E Pluribus Hugo and reverse-sequential PAV."
  },
  {
   "property": "C67",
   "status": "proved",
   "theorems": [
    "C67_joining",
    "C67_minimaxav",
    "C67_seqpav_refuted"
   ],
   "note": "Refuted for sequential PAV."
  },
  {
   "property": "C68",
   "status": "proved",
   "theorems": [
    "C68_refinements"
   ],
   "note": ""
  },
  {
   "property": "C69",
   "status": "proved",
   "theorems": [
    "C69_efficient",
    "C69_weakly_efficient",
    "C69_seqpav_refuted"
   ],
   "note": "Refuted for sequential PAV."
  },
  {
   "property": "C70",
   "status": "proved",
   "theorems": [
    "C70_single_seat",
    "C70_other_rules_refuted"
   ],
   "note": "Refuted for SAV, minimax AV and E Pluribus Hugo."
  },
  {
   "property": "C71",
   "status": "proved",
   "theorems": [
    "C71_all_seats"
   ],
   "note": ""
  },
  {
   "property": "C72",
   "status": "proved",
   "theorems": [
    "C72_text",
    "C72_identifies",
    "C72_default_names",
    "C72_file_guard",
    "C72_file_guard_refuted",
    "C72_compact"
   ],
   "note": "For distinct names without commas and a faithful str() of numbers; refuted when the names differ."
  },
  {
   "property": "C73",
   "status": "proved",
   "theorems": [
    "C73_read",
    "C73_accepts",
    "C73_unambiguous"
   ],
   "note": ""
  },
  {
   "property": "C74",
   "status": "proved",
   "theorems": [
    "C74_JR",
    "C74_EJR_plus",
    "C74_EJR",
    "C74_PJR",
    "C74_FJR",
    "C74_core",
    "C74_pareto",
    "C74_evidence",
    "C74_EJR_brute_force",
    "C74_PJR_brute_force",
    "C74_brute_force_group_refuted",
    "C74_fraction_weights_refuted",
    "C74_same_result",
    "C74_same_result_formattable",
    "C74_levels",
    "C74_full_analysis"
   ],
   "note": "For exact solvers and formattable weights (int, or Python >= 3.12); two refutations mark the limits."
  },
  {
   "property": "C75",
   "status": "proved",
   "theorems": [
    "C75_prices",
    "C75_few_approved",
    "C75_no_voters_refuted"
   ],
   "note": "For exact solvers; refuted for profiles without voters (max() of no payments)."
  },
  {
   "property": "C76",
   "status": "proved",
   "theorems": [
    "C76_terminal"
   ],
   "note": "For all rules and algorithms of C21; Python's str of numbers and textwrap.fill are parameters. Not for the float-fractions algorithms."
  },
  {
   "property": "C77",
   "status": "proved",
   "theorems": [
    "C77_account"
   ],
   "note": "For all rules and algorithms of C21. Numbers up to equality of rationals; Python's str of numbers is a parameter. Not for the float-fractions algorithms."
  },
  {
   "property": "C78",
   "status": "proved",
   "theorems": [
    "C78_phragmen_loads",
    "C78_phragmen_unapproved_refuted",
    "C78_revseq_tie_refuted",
    "C78_revseq_label_refuted",
    "C78_budget_spent_refuted",
    "C78_lexminimax_distances_refuted"
   ],
   "note": "Positive for sequential Phragm\u00e9n's loads; five refutations list the sentences that are wrong."
  },
  {
   "property": "C79",
   "status": "proved",
   "theorems": [
    "C79_default_valid",
    "C79_default_restricts",
    "C79_increment",
    "C79_increment_success",
    "C79_binary64"
   ],
   "note": "For any arithmetic satisfying float_ok (seq. Phragm\u00e9n completion: small elections, weights at least 1) or any arithmetic at all (the other rules). Increment completion: RuntimeError excluded for weights >= 1 and at most 50 seats. No overflow, underflow or NaN."
  },
  {
   "property": "C80",
   "status": "proved",
   "theorems": [
    "C80_accuracy",
    "C80_resolute",
    "C80_no_near_ties",
    "C80_integer_weights",
    "C80_large_electorate_refuted"
   ],
   "note": "Sequential Phragm\u00e9n with weights of at least 1 and k(n+9) <= 4400. Equality with the exact algorithm without near ties, in particular for small integer electorates; refuted for large electorates."
  },
  {
   "property": "C81",
   "status": "proved",
   "theorems": [
    "C81_committee_list",
    "C81_committee_list_faithful",
    "C81_wrapping",
    "C81_every_text_has_lines",
    "C81_analysis_line"
   ],
   "note": "textwrap.fill is a parameter; sets without names (with names: C76)."
  },
  {
   "property": "C82",
   "status": "proved",
   "theorems": [
    "C82_eph",
    "C82_eph_integer_weights",
    "C82_consensus",
    "C82_consensus_integer_weights",
    "C82_enestroem",
    "C82_enestroem_integer_weights"
   ],
   "note": "Size bounds: EPH at most 2100 voters; consensus rule k(6k+9+5n)max(1,W) <= 4300; Enestr\u00f6m 2^(k-1)(2.1n+20)max(1,W) <= 4300 (n voters of total weight W)."
  },
  {
   "property": "C83",
   "status": "proved",
   "theorems": [
    "C83_no_completion",
    "C83_av_completion",
    "C83_phragmen_completion",
    "C83_increment_completion"
   ],
   "note": "Sizes: (k+1)(1.1n+24)(K+1) <= 4000 and N^(k+2)(2K+4) < 5*10^11 for n voters of total weight at most N, with K = k (no completion, av), K = k*N (increment), and slightly stronger bounds for the Phragm\u00e9n completion. Nothing is claimed for non-integer weights (C79 gives validity there)."
  },
  {
   "property": "C84",
   "status": "proved",
   "theorems": [
    "C84_file_names",
    "C84_no_files",
    "C84_listing_order",
    "C84_read_directory",
    "C84_unreadable_file"
   ],
   "note": "The file system (os.walk, the parser of a file) is a universally quantified parameter."
  },
  {
   "property": "C85",
   "status": "proved",
   "theorems": [
    "C85_party_list",
    "C85_highest_averages",
    "C85_dhondt",
    "C85_sainte_lague",
    "C85_rules_agree",
    "C85_dhondt_lower_quota",
    "C85_av_refuted"
   ],
   "note": "Solver algorithms under the contract libraries_ok; rules with fractions for exact arithmetic and enough_support (SpecSeq.v). Approval voting is not proportional (C85_av_refuted)."
  },
  {
   "property": "C86",
   "status": "proved",
   "theorems": [
    "C86_largest_remainders",
    "C86_remainders_lower_quota",
    "C86_whole_quotas"
   ],
   "note": "Exact arithmetic."
  },
  {
   "property": "C87",
   "status": "proved",
   "theorems": [
    "C87_indifferent",
    "C87_abstentions",
    "C87_minimaxav",
    "C87_other_rules_refuted",
    "C87_monroe_refuted",
    "C87_full_ballots_seqphragmen_refuted"
   ],
   "note": "Irresolute calls. The refuted theorems show which other rules count voters."
  },
  {
   "property": "C88",
   "status": "proved",
   "theorems": [
    "C88_extra_candidates",
    "C88_resolute",
    "C88_greedy_monroe",
    "C88_resolute_refuted"
   ],
   "note": "The irresolute theorem covers every rule of SpecAll.listed and listed_short (sav with Fraction weights). C88_resolute_refuted shows that the resolute form fails for branch-and-bound."
  },
  {
   "property": "C89",
   "status": "proved",
   "theorems": [
    "C89_leximax",
    "C89_leximax_spec",
    "C89_minimax_refuted"
   ],
   "note": "With the tolerances of the program (ACCURACY, CMP_ACCURACY) and the exact-solver oracle of C53. C89_minimax_refuted shows that minimax Phragm\u00e9n lacks the property."
  },
  {
   "property": "C90",
   "status": "proved",
   "theorems": [
    "C90_JR",
    "C90_PJR",
    "C90_EJR",
    "C90_EJR_plus",
    "C90_checked",
    "C90_rules",
    "C90_JR_refuted",
    "C90_PJR_refuted",
    "C90_seqpav_refuted",
    "C90_seqgeom_refuted",
    "C90_revseqpav_refuted",
    "C90_minimaxav_refuted",
    "C90_sav_refuted"
   ],
   "note": "C90_JR/C90_PJR/C90_EJR/C90_EJR_plus are equivalences for the definition of the rules, for all weight functions; C90_checked/C90_rules are about compute and properties.check_JR (optimises in SpecJR.v lists the rules and algorithms). The _refuted theorems show the rules without the guarantee."
  },
  {
   "property": "C91",
   "status": "proved",
   "theorems": [
    "C91_sequential",
    "C91_represents",
    "C91_represents_rules",
    "C91_represents_spec",
    "C91_sequential_spec",
    "C91_sequential_tight",
    "C91_av_refuted",
    "C91_revseq_refuted"
   ],
   "note": "C91_sequential and C91_represents are about compute and thiele_score (score_of_id); the _spec theorems say the same of the definitions for all weight functions. C91_sequential_tight shows that the share cannot be improved for k = 2; the _refuted theorems concern rules without the guarantee."
  },
  {
   "property": "C92",
   "status": "proved",
   "theorems": [
    "C92_EJR_plus_checked",
    "C92_EJR_spec",
    "C92_EJR_checked",
    "C92_equal_shares",
    "C92_pav",
    "C92_pav_spec",
    "C92_EJR_pav_degree_refuted"
   ],
   "note": "average_at_least/average_above (SpecDegree.v) quantify over groups that agree on l candidates, the _plus forms over groups that agree on a candidate outside the committee. C92_pav_spec holds for every quota above n/(k+1). C92_EJR_pav_degree_refuted: EJR and EJR+ do not give the average of PAV."
  },
  {
   "property": "C93",
   "status": "proved",
   "theorems": [
    "C93_pav",
    "C93_pav_spec",
    "C93_check",
    "C93_core_refuted",
    "C93_av_refuted",
    "C93_cc_refuted"
   ],
   "note": "approximate_core and disjoint_core are defined in SpecCore.v on top of SpecAxioms.v. C93_check ties the factor 1 to properties.check_core (brute-force). The _refuted theorems show that the factor cannot be replaced by 1 for PAV and that AV and CC do not reach it."
  },
  {
   "property": "C94",
   "status": "proved",
   "theorems": [
    "C94_av",
    "C94_av_irresolute",
    "C94_free_riding_refuted",
    "C94_revseqpav_refuted",
    "C94_resolute_refuted",
    "C94_sav_refuted"
   ],
   "note": "misreports (SpecStrategy.v): one ballot is replaced, the weight and all other voters stay. util v W counts the members of W that v (with the honest ballot) approves. The _refuted theorems hold for all environments; C94_free_riding_refuted and C94_revseqpav_refuted involve no ties."
  }
 ]
}